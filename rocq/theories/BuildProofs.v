(** C84: which calls give something that can be built. *)
From Coq Require Import Reals Lra Arith List Bool ZArith Lia.
From Verif Require Import PyBase RSum NdArray NdEinsum Component JacSpec CompReorder CompReduce CompProduct
  CompTensor CompRot CompEinsum CompEinsumSparse CompElem CompExtremum CompNorm CompCond
  StdCalls SpecReduce SpecReorder SpecShapes SpecBuild ReorderProofs ReduceProofs KeptProofs ShapeMain.
Import ListNotations.
Local Open Scope nat_scope.

Lemma norm_axes_inv : forall r zs axes, norm_axes r zs = Some axes -> Forall2 (axis_named r) zs axes.
Proof.
  intros r. induction zs as [|z zs IH]; intros axes H; cbn [norm_axes] in H.
  - inversion H. constructor.
  - destruct (norm_axis r z) as [a|] eqn:Ea; [|discriminate].
    destruct (norm_axes r zs) as [l|] eqn:El; [|discriminate]. inversion H; subst.
    constructor; [|now apply IH]. unfold norm_axis in Ea. unfold axis_named.
    destruct ((0 <=? z) && (z <? Z.of_nat r))%Z eqn:E1.
    + injection Ea as <-. apply andb_prop in E1. rewrite Z.leb_le, Z.ltb_lt in E1. split; [lia|left; lia].
    + destruct ((- Z.of_nat r <=? z) && (z <? 0))%Z eqn:E2; [|discriminate].
      injection Ea as <-. apply andb_prop in E2. rewrite Z.leb_le, Z.ltb_lt in E2. split; [lia|right; lia].
Qed.

Lemma axis_named_fun : forall r z a b, axis_named r z a -> axis_named r z b -> a = b.
Proof. intros r z a b [H1 H2] [H3 H4]. lia. Qed.

Lemma remains_left : forall s zs axes, norm_axes (length s) zs = Some axes ->
  (axis_left s axes = true <-> axis_remains (length s) zs).
Proof.
  intros s zs axes H. apply norm_axes_inv in H. split.
  - intros Hl. assert (Hd : ~ forall i, i < length s -> In i axes).
    { intros C. now rewrite axis_left_none in Hl by assumption. }
    assert (E : exists i, i < length s /\ ~ In i axes).
    { clear H Hl. induction (length s) as [|n IH]; [elim Hd; intros; lia|].
      destruct (in_dec Nat.eq_dec n axes) as [Hin|Hin]; [|exists n; split; [lia|assumption]].
      destruct IH as (i & Hi & Hi2); [|exists i; split; [lia|assumption]].
      intros C. apply Hd. intros i Hi. destruct (Nat.eq_dec i n) as [->|]; [assumption|apply C; lia]. }
    destruct E as (i & Hi & Hn). exists i. split; [assumption|]. intros z Hz Hzi. apply Hn.
    clear -H Hz Hzi. induction H as [|z' a zs axes Ha H IH]; [contradiction|].
    destruct Hz as [->|Hz]; [left; exact (axis_named_fun _ _ _ _ Ha Hzi)|right; auto].
  - intros (i & Hi & Hz). destruct (axis_left s axes) eqn:E; [reflexivity|]. exfalso.
    assert (Hn : ~ In i axes).
    { clear -H Hz. intros C. induction H as [|z a zs axes Ha H IH]; [contradiction|].
      destruct C as [->|C]; [apply (Hz z); [now left|assumption]|]. apply IH; [|assumption].
      intros z' Hz'. apply Hz. now right. }
    unfold axis_left in E. apply Nat.ltb_ge in E. rewrite delete_drop in E. unfold drop_axes in E.
    rewrite map_length in E.
    assert (Hin : In i (filter (fun j => negb (existsb (Nat.eqb j) axes)) (seq 0 (length s)))).
    { apply filter_In. split; [apply in_seq; lia|]. apply negb_true_iff.
      destruct (existsb (Nat.eqb i) axes) eqn:Ex; [|reflexivity]. elim Hn.
      apply existsb_exists in Ex. destruct Ex as (y & Hy & Ey). apply Nat.eqb_eq in Ey. now subst y. }
    destruct (filter _ _); [contradiction|cbn in E; lia].
Qed.

Lemma last_shape_of : forall xs, last_shape xs = x_shape (last_of xs).
Proof.
  intros xs. unfold last_shape, last_of. destruct xs as [|x xs]; [reflexivity|].
  destruct (exists_last (l := x :: xs)) as (l & y & E); [discriminate|].
  rewrite E, rev_app_distr, last_last. reflexivity.
Qed.

Lemma distinct_iff : forall xs c, distinct_inputs xs c <> None <-> NoDup (map x_name xs) /\ c <> None.
Proof.
  intros xs c. split.
  - intros H. destruct (distinct_inputs xs c) as [d|] eqn:E; [|congruence].
    apply distinct_inv in E as [-> E]. split; [assumption|discriminate].
  - intros [H Hc]. now rewrite distinct_same.
Qed.

Lemma two_iff : forall x y c, distinct_inputs [x; y] c <> None <-> x_name x <> x_name y /\ c <> None.
Proof.
  intros x y c. rewrite distinct_iff. split; intros [H Hc]; (split; [|assumption]).
  - intros E. inversion H as [|? ? Hn _]; subst. apply Hn. left. congruence.
  - now apply two_names.
Qed.

Lemma names_iff : forall l (c : component), (if names_ok l then Some c else None) <> None <-> NoDup l.
Proof.
  intros l c. induction l as [|x l IH].
  - cbn. split; [constructor|discriminate].
  - cbn [names_ok]. destruct (existsb (Nat.eqb x) l) eqn:E; cbn [negb andb].
    + split; [congruence|]. intros H. inversion H as [|? ? Hn _]; subst. elim Hn.
      apply existsb_exists in E. destruct E as (y & Hy & Ey). apply Nat.eqb_eq in Ey. now subst y.
    + rewrite IH. split; [|now inversion 1]. intros H. constructor; [|assumption]. intros C.
      assert (T : existsb (Nat.eqb x) l = true); [|congruence].
      apply existsb_exists. exists x. split; [assumption|apply Nat.eqb_refl].
Qed.

Lemma some_iff : forall (A : Type) (x : A) (P : Prop), P -> (Some x <> None <-> P).
Proof. intros A x P H. split; [auto|discriminate]. Qed.
Lemma none_iff : forall (A : Type) (P : Prop), ~ P -> (@None A <> None <-> P).
Proof. intros A P H. split; [congruence|tauto]. Qed.

Lemma single_ok : forall n, NoDup [n : nat].
Proof. intros n. constructor; [intros []|constructor]. Qed.

Lemma pair_ok : forall n m : nat, NoDup [n; m] <-> n <> m.
Proof.
  intros n m. split.
  - intros H E. inversion H as [|? ? Hn _]; subst. apply Hn. now left.
  - intros H. constructor; [|apply single_ok]. intros [E|[]]. congruence.
Qed.

Lemma reorder_builds : forall s op ins outs t, spells op ins outs -> letters ins -> letters outs ->
  reorder_std s op = Some t ->
  (reorder_comp s op <> None <-> NoDup outs /\ length outs = length s).
Proof.
  intros s op ins outs t Hop Hi Ho Ht. unfold reorder_comp, reorder_out_shape. rewrite Ht.
  assert (Hax : new_axes op = map_opt (str_index ins) outs).
  { unfold new_axes. unfold spells in Hop. change c_space with 32.
    rewrite Hop, split_arrow_letters by assumption. now rewrite split_arrow_none by assumption. }
  unfold reorder_std in Ht. unfold reorder_partials. rewrite Hax in *.
  destruct (map_opt (str_index ins) outs) as [p|] eqn:E; [|discriminate].
  apply map_opt_inv in E. destruct E as [El Ei]. apply map_opt_inv in Ht. destruct Ht as [Tl Ti].
  assert (Hin : forall i, i < length outs ->
             In (nth i outs 0) ins /\ nth i p 0 = find_pos ins (nth i outs 0)).
  { intros i Hii. specialize (Ei i 0 0 Hii). unfold str_index in Ei.
    destruct (mem (nth i outs 0) ins) eqn:Em; [|discriminate].
    apply mem_In in Em. inversion Ei. auto. }
  assert (Hlt : forall i, i < length p -> nth i p 0 < length s).
  { intros i Hii. specialize (Ti i 0 0 Hii). apply nth_error_Some. congruence. }
  assert (Hd : NoDup p <-> NoDup outs).
  { rewrite !(NoDup_nth _ 0). split; intros H i j Hii Hjj Hij; apply H; try lia.
    - destruct (Hin i Hii) as [_ Hi1]. destruct (Hin j Hjj) as [_ Hj1]. congruence.
    - destruct (Hin i ltac:(lia)) as [Hi0 Hi1]. destruct (Hin j ltac:(lia)) as [Hj0 Hj1].
      apply (find_pos_inj ins); auto. congruence. }
  destruct (axes_ok (length s) p) eqn:Ea.
  - apply axes_ok_inv in Ea. destruct Ea as [E1 [E2 E3]].
    assert (Hp : NoDup outs /\ length outs = length s) by (split; [now apply Hd|lia]).
    assert (Hs : sparse_partials (np_arange (size s))
                   (np_flatten (np_transpose_axes (np_reshape (np_arange (size s)) s) p)) (np_ones (size s)) <> None).
    { rewrite (sparse_partials_vec (size s)); [discriminate|reflexivity| |reflexivity].
      unfold np_flatten. cbn [shp]. f_equal. change (size (map (fun i => nth i s 0) p) = size s).
      apply size_perm. pose proof (map_nth_seq s) as Em.
      apply Permutation.Permutation_trans with (map (fun i => nth i s 0) (seq 0 (length s)));
        [|now rewrite Em]. apply Permutation.Permutation_map.
      apply Permutation.NoDup_Permutation_bis; [assumption|rewrite seq_length; lia|].
      intros a Ha. apply in_seq. specialize (E2 a Ha). lia. }
    destruct (sparse_partials _ _ _); [|congruence]. now apply some_iff.
  - apply none_iff. intros [H1 H2]. apply Hd in H1.
    assert (T : axes_ok (length s) p = true); [|congruence].
    unfold axes_ok. rewrite (proj2 (nodupb_NoDup p) H1), (proj2 (Nat.eqb_eq _ _)) by lia. cbn.
    rewrite andb_true_r. apply forallb_forall. intros a Ha. apply Nat.ltb_lt.
    apply (In_nth _ _ 0) in Ha. destruct Ha as (i & Hi2 & <-). auto.
Qed.

Theorem which_build : forall k s b, std k = Some (s, b) -> covered k -> (b <> None <-> builds k).
Proof.
  intros k s b H Hk. destruct k; cbn [std] in H; cbn [builds covered] in *.
  - inversion H. now apply some_iff.
  - destruct op, a, b0; cbn in H; try discriminate;
      repeat match type of H with
             | of_outcome (if ?t then _ else _) = _ => destruct t; cbn in H; try discriminate
             end; inversion H; subst; clear H.
    all: try (apply none_iff; intros [? ?]; congruence).
    all: try (apply some_iff; split; discriminate).
    all: unfold linear_comp, power_comp; try rewrite names_iff, pair_ok; try reflexivity.
    all: try (rewrite names_iff; split; [intros _; first [exact I|split; discriminate]|intros _; apply single_ok]).
    all: try (apply none_iff; tauto).
    + destruct (Nat.eqb_spec (length (shp a)) 1) as [El|El].
      * now apply some_iff.
      * apply none_iff. assumption.
  - destruct a; cbn in H; inversion H; subst; unfold is_var.
    + apply some_iff. eauto.
    + apply none_iff. intros (n & t & E). discriminate.
    + apply none_iff. intros (n & t & E). discriminate.
    + apply none_iff. intros (n & t & E). discriminate.
  - apply ShapeMain.returns_inv in H as [H1 <-]. rewrite distinct_iff, last_shape_of.
    assert (Hn : xs <> []) by (intros ->; discriminate).
    destruct xs as [|x xs]; [congruence|]. cbn [length].
    split; intros [Ha Hb]; (split; [assumption|]).
    + destruct axes as [zs|]; [|exact I]. unfold sum_comp in Hb.
      destruct (norm_axes _ zs) as [axes|] eqn:E; [|destruct (length xs); congruence].
      apply (remains_left _ _ _ E). destruct (length xs); destruct (axis_left _ axes); congruence.
    + unfold sum_comp. destruct axes as [zs|]; [|destruct (length xs); discriminate].
      unfold reduced_shape in H1. rewrite <- last_shape_of in *. unfold last_shape in *.
      destruct (rev (x :: xs)) as [|y r] eqn:Er; [discriminate|].
      assert (E : norm_axes (length (x_shape y)) zs <> None).
      { intros C. unfold np_delete_axes in H1. rewrite C in H1. destruct r; discriminate. }
      destruct (norm_axes _ zs) as [axes|] eqn:E2; [|congruence].
      apply (remains_left _ _ _ E2) in Hb. rewrite Hb. destruct (length xs); discriminate.
  - apply ShapeMain.returns_inv in H as [H1 <-]. rewrite distinct_iff, last_shape_of.
    assert (Hn : xs <> []) by (intros ->; discriminate).
    destruct xs as [|x xs]; [congruence|]. cbn [length].
    split; intros [Ha Hb]; (split; [assumption|]).
    + destruct axes as [zs|]; [|exact I]. unfold average_comp in Hb.
      destruct (norm_axes _ zs) as [axes|] eqn:E; [|destruct (length xs); congruence].
      assert (Hl : length zs = length axes) by (symmetry; exact (norm_axes_length _ _ _ E)).
      split.
      * rewrite Hl. destruct axes as [|a [|b axes]]; cbn; try lia.
        cbn in Hb. destruct (length xs); congruence.
      * apply (remains_left _ _ _ E). destruct (length xs); destruct (entries_averaged _ axes);
          destruct (axis_left _ axes); congruence.
    + unfold average_comp. destruct axes as [zs|]; [|destruct (length xs); discriminate].
      unfold reduced_shape in H1. rewrite <- last_shape_of in *. unfold last_shape in *.
      destruct (rev (x :: xs)) as [|y r] eqn:Er; [discriminate|].
      assert (E : norm_axes (length (x_shape y)) zs <> None).
      { intros C. unfold np_delete_axes in H1. rewrite C in H1. destruct r; discriminate. }
      destruct (norm_axes _ zs) as [axes|] eqn:E2; [|congruence].
      assert (Hl : length zs = length axes) by (symmetry; exact (norm_axes_length _ _ _ E2)).
      destruct Hb as [Hb1 Hb2].
      apply (remains_left _ _ _ E2) in Hb2. rewrite Hb2.
      destruct axes as [|a [|b axes]]; cbn in Hl; [| |lia]; cbn [entries_averaged];
        destruct (length xs); discriminate.
  - unfold extremum in H. destruct xs as [|x [|y xs]]; destruct axis as [z|]; cbn [map name_shape] in H; try discriminate.
    + destruct (norm_axis _ z) as [a|]; [|discriminate]. inversion H; subst. unfold axis_ext.
      destruct (Nat.leb_spec (length (x_shape x)) 12) as [Hl|Hl].
      * apply some_iff. intros x' [<-|[]]. assumption.
      * apply none_iff. intros C. specialize (C x (or_introl eq_refl)). lia.
    + inversion H; subst. apply some_iff. apply single_ok.
    + destruct (all_shapes _ _); [|discriminate]. inversion H; subst. unfold elementwise_ext.
      rewrite names_iff. cbn [map fst name_shape]. rewrite map_map. reflexivity.
  - unfold pnorm in H. destruct axis as [|zs|]; [| |discriminate].
    + destruct (negb _ || _); inversion H; subst. now apply some_iff.
    + destruct (negb _ || _); [discriminate|].
      destruct (norm_axes _ zs) as [axes|] eqn:E; [|discriminate]. inversion H; subst.
      rewrite <- (remains_left _ _ _ E), <- Nat.leb_le.
      destruct (Nat.leb _ 26); cbn [andb]; [|apply none_iff; intros [? ?]; discriminate].
      destruct (axis_left _ axes); [now apply some_iff|apply none_iff; intros [? ?]; discriminate].
  - apply ShapeMain.returns_inv in H as [H1 <-]. rewrite two_iff. split; [tauto|]. intros Hn. split; [assumption|].
    unfold inner_shape in H1. unfold inner, tensor_inner_comp, np_delete_axes in *.
    destruct (x_shape x) as [|a [|a' l]]; destruct (x_shape y) as [|c [|c' l']]; try discriminate.
    all: destruct axes as [[z0 z1]|]; try discriminate.
    all: destruct (norm_axes _ z0); try discriminate; destruct (norm_axes _ z1); discriminate.
  - apply ShapeMain.returns_inv in H as [H1 <-]. rewrite two_iff. split; [tauto|]. intros Hn. split; [assumption|].
    unfold dot_shape in H1. unfold dot_comp. destruct (list_eq_dec _ _ _); [|discriminate].
    destruct (x_shape x) as [|a [|a' l]]; try discriminate.
    all: destruct axis as [z|]; try discriminate.
    all: destruct (norm_axis _ z) as [d|]; try discriminate; destruct (Nat.eqb _ 3); discriminate.
  - apply ShapeMain.returns_inv in H as [H1 <-]. rewrite two_iff. split; [tauto|]. intros Hn. split; [assumption|discriminate].
  - destruct (matvec_comp _ _); [|discriminate]. inversion H; subst. rewrite two_iff.
    split; [tauto|]. intros Hn. split; [assumption|discriminate].
  - destruct (matmat_comp _ _) as [[c t]|]; [|discriminate]. inversion H; subst. rewrite two_iff.
    unfold reshape_val_ok. split; intros [Hn Hv]; (split; [assumption|]).
    + intros Hl. destruct (x_shape y) as [|n [|? ?]]; try discriminate.
      destruct (Nat.eqb_spec (size (x_val y)) (size [n; 1])) as [E|]; [|congruence]. rewrite E. cbn. lia.
    + destruct (x_shape y) as [|n [|? ?]]; try discriminate. rewrite Hv by reflexivity.
      replace (size [n; 1]) with (size [n]) by (cbn; lia). rewrite Nat.eqb_refl. discriminate.
  - apply ShapeMain.returns_inv in H as [H1 <-]. rewrite two_iff. unfold cross_comp.
    destruct (list_eq_dec _ _ _); [|discriminate].
    destruct (nth_error (x_shape x) axis) as [[|[|[|[|d]]]]|] eqn:E; try discriminate.
    assert (Hl : length (x_shape x) = S (length (delete [axis] (x_shape x)))).
    { assert (Ha : axis < length (x_shape x)) by (apply nth_error_Some; congruence).
      pose proof (delete_length [axis] (x_shape x)) as Hd. cbn [length] in Hd.
      assert (Hu : length (delete [axis] (x_shape x)) < length (x_shape x)); [|lia].
      clear -Ha. unfold delete. revert Ha. generalize (x_shape x) as l.
      assert (G : forall (l : list nat) i, axis < i + length l -> i <= axis -> length (delete_from i [axis] l) < length l).
      { assert (G0 : forall (l : list nat) i, length (delete_from i [axis] l) <= length l).
        { induction l as [|h l IH]; intros i; cbn; [lia|]. destruct (Nat.eqb i axis || false); cbn; specialize (IH (S i)); lia. }
        induction l as [|h l IH]; intros i H1 H2; cbn in *; [lia|].
        destruct (Nat.eqb_spec i axis) as [->|Hne]; cbn.
        - specialize (G0 l (S axis)). lia.
        - specialize (IH (S i)). lia. }
      intros l Hl. apply G; lia. }
    destruct (Nat.leb_spec (length (delete [axis] (x_shape x))) 10) as [Hle|Hle].
    + split; intros [Ha Hb]; (split; [assumption|]); [lia|discriminate].
    + split; intros [Ha Hb]; [congruence|lia].
  - inversion H. now apply some_iff.
  - inversion H. now apply some_iff.
  - inversion H. now apply some_iff.
  - apply ShapeMain.returns_inv in H as [H1 <-]. destruct Hk as (ins & outs & Hi & Ho & Hs).
    rewrite (reorder_builds _ _ _ _ _ Hs Hi Ho H1). split.
    + intros Hb ins' outs' Hi' Ho' Hs'.
      assert (E : outs' = outs); [|now subst]. unfold spells in Hs, Hs'. rewrite Hs in Hs'.
      pose proof (split_arrow_letters ins outs Hi) as E1. pose proof (split_arrow_letters ins' outs' Hi') as E2.
      rewrite Hs' in E1. congruence.
    + intros Hb. exact (Hb ins outs Hi Ho Hs).
  - unfold expand_comp in H. destruct (expand_std _ _ _); [|discriminate]. inversion H. now apply some_iff.
  - subst. apply ShapeMain.returns_inv in H as [H1 <-]. unfold einsum_any, einsum_comp, einsum_shape in *.
    rewrite H1. now apply some_iff.
  - subst. apply ShapeMain.returns_inv in H as [H1 <-]. unfold einsum_new_any, einsum_new_shape in *.
    destruct (new_subscripts _ _) as [[aslist str]|] eqn:E; [|discriminate].
    rewrite (ShapeProofs.new_subscripts_shape _ _ _ _ _ E) in H1.
    unfold einsum_any, einsum_comp, einsum_shape in *. rewrite H1. now apply some_iff.
  - unfold if_else in H. destruct (list_eq_dec _ _ _); [|discriminate]. inversion H; subst.
    unfold cond_comp. cbn [map]. rewrite <- Nat.leb_le.
    destruct (Nat.leb (size (x_shape t)) 1); rewrite ?andb_true_r, ?andb_false_r.
    + rewrite names_iff. tauto.
    + apply none_iff. intros [_ C]. discriminate.
Qed.

(** The same operand twice. *)
Theorem twice_fails : forall k s b, std k = Some (s, b) -> ~ is_einsum k ->
  ~ NoDup (map fst (call_operands k)) -> b = None.
Proof.
  intros k s b H He Hd. destruct b as [c|]; [|reflexivity]. elim Hd. clear Hd.
  assert (Hone : forall x : nat * shape, NoDup (map fst [x])) by (intros; apply single_ok).
  assert (Hb : (forall x op, k <> KReorder x op) -> builds k).
  { intros Hr. apply (which_build k s (Some c) H); [|discriminate].
    destruct k; cbn in *; try tauto. elim (Hr x op). reflexivity. }
  destruct k; cbn [call_operands]; try apply Hone; try (elim He; exact I).
  - specialize (Hb ltac:(discriminate)). cbn in Hb.
    destruct op, a, b; cbn in *; try apply single_ok; try constructor; try (now apply pair_ok); try contradiction.
    all: try (intros [->|[]]; now apply Hb). all: try apply single_ok.
  - destruct a; cbn; try constructor; [intros []|constructor].
  - specialize (Hb ltac:(discriminate)). destruct Hb as [Hb _]. now rewrite map_map.
  - specialize (Hb ltac:(discriminate)). destruct Hb as [Hb _]. now rewrite map_map.
  - specialize (Hb ltac:(discriminate)). cbn in Hb. rewrite map_map.
    destruct axis as [z|]; [|assumption]. destruct xs as [|x [|y xs]]; cbn in *; try discriminate.
    + apply single_ok.
  - specialize (Hb ltac:(discriminate)). now apply two_names.
  - specialize (Hb ltac:(discriminate)). now apply two_names.
  - specialize (Hb ltac:(discriminate)). now apply two_names.
  - specialize (Hb ltac:(discriminate)). now apply two_names.
  - specialize (Hb ltac:(discriminate)). destruct Hb as [Hb _]. now apply two_names.
  - specialize (Hb ltac:(discriminate)). destruct Hb as [Hb _]. now apply two_names.
  - specialize (Hb ltac:(discriminate)). now destruct Hb.
Qed.

(** Declared operands, distinct names, nothing rejected: and still no component. *)
Theorem returned_unbuilt : exists k s, std k = Some (s, None) /\ covered k /\
  NoDup (map fst (call_operands k)).
Proof.
  exists (KAverage [Facts 0 [2; 3; 4] [2; 3; 4]] (Some [0; 1]%Z)), [4].
  splits; [reflexivity|exact I|apply single_ok].
Qed.

(** Concrete cases: an average over one axis of two arrays; a product of
    matrices; "ij->ji" and "ij->ii". *)
Example builds_instance :
  builds (KAverage [ea; eb] (Some [-1]%Z)) /\ ~ builds (KAverage [ea; eb] (Some [0; 1]%Z)) /\
  builds (KMatmat ea ec) /\ ~ builds (KMatmat ea ea) /\
  (exists s c, std (KReorder ea [105; 106; 45; 62; 106; 105]) = Some (s, Some c)) /\
  std (KReorder ea [105; 106; 45; 62; 105; 105]) = Some ([2; 2], None) /\
  covered (KReorder ea [105; 106; 45; 62; 106; 105]).
Proof.
  splits.
  - split; [now apply (two_names ea eb)|]. split; [cbn; lia|]. exists 0. split; [cbn; lia|].
    intros z [<-|[]] [_ H]. cbn in H. lia.
  - intros [_ [H _]]. cbn in H. lia.
  - split; discriminate.
  - intros [H _]. congruence.
  - do 2 eexists. vm_compute. reflexivity.
  - reflexivity.
  - exists [105; 106], [106; 105]. splits; [| |reflexivity]; intros c; cbn; lia.
Qed.
