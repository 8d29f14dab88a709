From Coq Require Import Reals Lra Arith List Bool ZArith Lia.
From Verif Require Import PyBase RSum NdArray NdEinsum Component JacSpec CompReorder CompReduce CompProduct
  CompTensor CompRot CompEinsum CompEinsumSparse CompElem CompExtremum CompNorm CompCond
  EinsumStrings EinsumProofs EinsumNew SpecEinsum StdCalls SpecShapes.
Import ListNotations.
Local Open Scope nat_scope.

(** ---- operators ---- *)

Lemma linear_comp_shape : forall s names ks k c, linear_comp s names ks k = Some c ->
  c_out c = s /\ c_ins c = repeat s (length names).
Proof. intros * H. unfold linear_comp in H. destruct (names_ok names); inversion H. now split. Qed.

Lemma power_comp_shape : forall s names ps k c, power_comp s names ps k = Some c ->
  c_out c = s /\ c_ins c = repeat s (length names).
Proof. intros * H. unfold power_comp in H. destruct (names_ok names); inversion H. now split. Qed.

Lemma outcome_expr : forall o s c, of_outcome o = Some (s, Some c) -> o = Expr s (Some (Some c)).
Proof.
  intros [| |s' [b|]] s c H; cbn in H; try discriminate. inversion H; subst. reflexivity.
Qed.

Ltac op_case :=
  match goal with
  | H : (if ?b then _ else _) = Expr _ _ |- _ => destruct b
  | H : (if ?b then _ else _) = Some _ |- _ => destruct b
  | H : None = Some _ |- _ => discriminate H
  | H : Some _ = Some _ |- _ => inversion H; clear H; subst
  | H : Expr _ _ = Expr _ _ |- _ => inversion H; clear H; subst
  | H : Raises = Expr _ _ |- _ => discriminate H
  | H : ArrayOfExprs = Expr _ _ |- _ => discriminate H
  | H : linear_comp _ _ _ _ = Some _ |- _ =>
      apply linear_comp_shape in H; destruct H as [-> ->]; cbn; now split
  | H : power_comp _ _ _ _ = Some _ |- _ =>
      apply power_comp_shape in H; destruct H as [-> ->]; cbn; now split
  end.

Lemma binop_shape : forall op a b s c, py_binop op a b = Expr s (Some (Some c)) ->
  c_out c = s /\ c_ins c = map snd (operand_expr a ++ operand_expr b).
Proof.
  intros op a b s c H.
  destruct a as [n s0|r|a|]; destruct b as [m t|r'|b|]; cbn in H; try discriminate;
    destruct op; cbn in H; try discriminate; repeat op_case; try now split.
Qed.

Lemma neg_shape : forall a s c, py_neg a = Expr s (Some (Some c)) ->
  c_out c = s /\ c_ins c = map snd (operand_expr a).
Proof.
  intros a s c H. destruct a as [n s0|r|a|]; cbn in H; try discriminate; repeat op_case; try now split.
Qed.

(** ---- reductions ---- *)

Lemma last_shape_cons : forall x xs, last_shape (x :: xs) = x_shape (last (x :: xs) x).
Proof.
  intros x xs. unfold last_shape.
  destruct (exists_last (l := x :: xs)) as (l & y & E); [discriminate|].
  rewrite E. rewrite rev_app_distr, last_last. reflexivity.
Qed.

Lemma last_shape_in : forall xs, xs <> [] -> exists x, In x xs /\ last_shape xs = x_shape x.
Proof.
  intros xs H. destruct (exists_last H) as (l & y & E). exists y. subst xs. split.
  - apply in_or_app. right. now left.
  - unfold last_shape. now rewrite rev_app_distr.
Qed.

(** Both reductions: the component of [n] operands of shape [s]. *)
Definition reduce_like (comp : shape -> nat -> option (list Z) -> option component) : Prop :=
  forall s n axes c, comp s n axes = Some c ->
    c_ins c = repeat s n /\ n <> 0 /\
    match axes with
    | None => c_out c = (if Nat.eqb n 1 then [1] else s)
    | Some zs => np_delete_axes s zs = Some (c_out c)
    end.

Lemma sum_like : reduce_like sum_comp.
Proof.
  intros s n axes c H. unfold sum_comp in H.
  destruct n as [|[|n]]; destruct axes as [zs|]; try discriminate.
  1, 3: destruct (norm_axes (length s) zs) as [a|] eqn:E; [|discriminate];
        destruct (axis_left s a); [|discriminate]; inversion H; subst;
        unfold np_delete_axes; rewrite E; cbn; splits; auto.
  all: inversion H; subst; cbn; splits; auto.
Qed.

Lemma average_like : reduce_like average_comp.
Proof.
  intros s n axes c H. unfold average_comp in H.
  destruct n as [|[|n]]; destruct axes as [zs|]; try discriminate.
  1, 3: destruct (norm_axes (length s) zs) as [a|] eqn:E; [|discriminate];
        destruct (entries_averaged s a); [|discriminate];
        destruct (axis_left s a); [|discriminate]; inversion H; subst;
        unfold np_delete_axes; rewrite E; cbn; splits; auto.
  all: inversion H; subst; cbn; splits; auto.
Qed.

Lemma reduced_out : forall comp xs axes s c, reduce_like comp ->
  reduced_shape xs axes = Some s -> comp (last_shape xs) (length xs) axes = Some c ->
  c_out c = s.
Proof.
  intros comp xs axes s c Hl Hs Hc. destruct (Hl _ _ _ _ Hc) as (_ & Hn & H).
  unfold reduced_shape in Hs. unfold last_shape in H.
  destruct (rev xs) as [|x r] eqn:E; [discriminate|].
  assert (length xs = length (x :: r)) as Hlen by (now rewrite <- E, rev_length).
  destruct axes as [zs|].
  - rewrite H in Hs. destruct r; congruence.
  - rewrite H, Hlen. destruct r as [|y r]; cbn in *; congruence.
Qed.

Lemma repeat_same : forall (s : shape) l, (forall x, In x l -> x = s) -> l = repeat s (length l).
Proof.
  induction l as [|x l IH]; intros H; [reflexivity|]. cbn. rewrite (H x) by now left.
  f_equal. apply IH. intros y Hy. apply H. now right.
Qed.

Lemma reduced_ins : forall comp xs axes c, reduce_like comp ->
  comp (last_shape xs) (length xs) axes = Some c ->
  (forall x y, In x xs -> In y xs -> x_shape x = x_shape y) ->
  c_ins c = map x_shape xs.
Proof.
  intros comp xs axes c Hl Hc Hs. destruct (Hl _ _ _ _ Hc) as (-> & Hn & _).
  destruct (last_shape_in xs) as (x & Hx & ->). { now destruct xs. }
  symmetry. rewrite <- (map_length x_shape xs). apply repeat_same.
  intros s Hy. apply in_map_iff in Hy. destruct Hy as (y & <- & Hy). auto.
Qed.

Lemma names_shapes : forall xs, map snd (map name_shape xs) = map x_shape xs.
Proof. intros. rewrite map_map. reflexivity. Qed.
Lemma names_names : forall xs, map fst (map name_shape xs) = map x_name xs.
Proof. intros. rewrite map_map. reflexivity. Qed.

(** ---- extrema ---- *)

Lemma extremum_shape : forall neg l axis rho s c,
  extremum neg l axis rho = Some (s, Some c) -> c_out c = s /\ c_ins c = map snd l.
Proof.
  intros neg l axis rho s c H. unfold extremum in H.
  destruct l as [|[n t] [|[m u] l]]; destruct axis as [z|]; try discriminate.
  - destruct (norm_axis (length t) z) as [a|]; [|discriminate]. inversion H; subst.
    unfold axis_ext in H2. destruct (Nat.leb _ _); inversion H2; subst. now split.
  - inversion H; subst. now split.
  - destruct (all_shapes t ((n, t) :: (m, u) :: l)) eqn:E; [|discriminate]. inversion H; subst.
    unfold elementwise_ext in H2. destruct (names_ok _); inversion H2; subst. split; [reflexivity|].
    cbn [c_ins]. unfold all_shapes in E. rewrite forallb_forall in E.
    assert (Hall : forall t, In t (map snd ((n, s) :: (m, u) :: l)) -> t = s).
    { intros t Ht. apply in_map_iff in Ht. destruct Ht as (e & <- & He). specialize (E e He).
      now destruct (list_eq_dec Nat.eq_dec s (snd e)). }
    apply repeat_same in Hall. rewrite Hall. cbn. now rewrite !map_length.
Qed.

Lemma pnorm_shape : forall s p axis t c, pnorm s p axis = Some (t, Some c) ->
  c_out c = t /\ c_ins c = [s].
Proof.
  intros s p axis t c H. unfold pnorm in H. destruct axis as [|zs|]; [| |discriminate].
  all: destruct (negb _ || _); [discriminate|].
  - inversion H; subst. now split.
  - destruct (norm_axes (length s) zs) as [a|]; [|discriminate].
    destruct (Nat.leb (length s) 26 && axis_left s a); inversion H; subst. now split.
Qed.

(** ---- products ---- *)

Lemma inner_case : forall s0 s1 axes s c, inner_shape s0 s1 axes = Some s ->
  option_map snd (inner s0 s1 axes) = Some c ->
  c_out c = s /\ ((length s0 = 1 -> length s1 = 1 -> s0 = s1) -> c_ins c = [s0; s1]).
Proof.
  intros s0 s1 axes s c Hs Hc.
  assert (H : (exists a b, s0 = [a] /\ s1 = [b]) \/
              (inner s0 s1 axes = match axes with
                 | None => None
                 | Some (z0, z1) => option_map (fun c => (c_out c, c)) (tensor_inner_comp s0 s1 z0 z1)
                 end /\
               inner_shape s0 s1 axes = match axes with
                 | None => None
                 | Some (z0, z1) =>
                   match np_delete_axes s0 z0, np_delete_axes s1 z1 with
                   | Some r0, Some r1 => Some (r0 ++ r1)
                   | _, _ => None
                   end
                 end)).
  { destruct s0 as [|a [|a' l]]; destruct s1 as [|b [|b' l']]; auto. left. eauto. }
  destruct H as [(a & b & -> & ->)|(E1 & E2)].
  - cbn in *. inversion Hs; inversion Hc; subst. cbn. split; [reflexivity|].
    intros H. specialize (H eq_refl eq_refl). inversion H; subst. reflexivity.
  - rewrite E1 in Hc. rewrite E2 in Hs. destruct axes as [[z0 z1]|]; [|discriminate].
    unfold tensor_inner_comp, np_delete_axes in *.
    destruct (norm_axes (length s0) z0) as [a0|]; [|discriminate].
    destruct (norm_axes (length s1) z1) as [a1|]; [|discriminate].
    cbn in Hs, Hc. inversion Hs; inversion Hc; subst. now split.
Qed.

Lemma dot_case : forall s0 s1 axis s c, dot_shape s0 s1 axis = Some s ->
  dot_comp s0 s1 axis = Some c -> c_out c = s /\ c_ins c = [s0; s1].
Proof.
  intros s0 s1 axis s c Hs Hc. unfold dot_shape in Hs. unfold dot_comp in Hc.
  destruct (list_eq_dec Nat.eq_dec s0 s1) as [<-|]; [|discriminate].
  assert (H : (exists n, s0 = [n]) \/ forall A (f : nat -> A) (y : A),
            match s0 with [n] => f n | _ => y end = y).
  { destruct s0 as [|n [|m l]]; eauto. }
  destruct H as [(n & ->)|H].
  - inversion Hs; inversion Hc; subst. now split.
  - rewrite H in Hs, Hc. destruct axis as [z|]; [|discriminate].
    destruct (norm_axis (length s0) z) as [a|] eqn:E; [|discriminate].
    destruct (Nat.eqb (nth a s0 0) 3); [|discriminate].
    unfold np_delete_axes, norm_axes in Hs. cbn in Hs. rewrite E in Hs. cbn in Hs.
    inversion Hs; inversion Hc; subst. now split.
Qed.

Lemma outer_case : forall s0 s1, c_out (outer_comp s0 s1) = s0 ++ s1 /\ c_ins (outer_comp s0 s1) = [s0; s1].
Proof. intros [|a [|a' l]] [|b [|b' l']]; now split. Qed.

Lemma matvec_case : forall s0 s1 c, matvec_comp s0 s1 = Some c ->
  c_out c = firstn 1 s0 /\ c_ins c = [s0; s1].
Proof.
  intros s0 s1 c H. unfold matvec_comp in H.
  destruct s0 as [|m [|n [|? ?]]]; try discriminate. destruct s1 as [|n' [|? ?]]; try discriminate.
  destruct (Nat.eqb n n'); inversion H; subst. now split.
Qed.

Lemma matmat_case : forall s0 s1 c s, matmat_comp s0 s1 = Some (c, s) ->
  exists m n p, s0 = [m; n] /\ (s1 = [n; p] \/ s1 = [n] /\ p = 1) /\ s = [m; p] /\
    c_out c = (if Nat.eqb p 1 then [m] else [m; p]) /\ c_ins c = [[m; n]; [n; p]].
Proof.
  intros s0 s1 c s H. unfold matmat_comp in H.
  destruct s0 as [|m [|n [|? ?]]]; try discriminate.
  destruct s1 as [|n' [|p [|? ?]]]; try discriminate;
    destruct (Nat.eqb_spec n n') as [<-|]; try discriminate; inversion H; subst.
  - exists m, n, 1. splits; auto.
  - exists m, n, p. splits; auto.
Qed.

Lemma cross_case : forall s0 s1 axis c, cross_comp s0 s1 axis = Some c ->
  c_out c = s0 /\ c_ins c = [s0; s1].
Proof.
  intros s0 s1 axis c H. unfold cross_comp in H.
  destruct (list_eq_dec Nat.eq_dec s0 s1); [|discriminate].
  destruct (nth_error s0 axis) as [[|[|[|[|d]]]]|]; try discriminate.
  destruct (Nat.leb _ _); inversion H; subst. now split.
Qed.

(** ---- einsum ---- *)

Lemma einsum_any_case : forall sp op names shapes c, einsum_any sp op names shapes = Some c ->
  einsum_shape op shapes = Some (c_out c) /\
  c_ins c = map (shape_of_name names shapes) (distinct names).
Proof.
  intros sp op names shapes c H. unfold einsum_any, einsum_sparse_comp, einsum_comp in H. unfold einsum_shape.
  destruct sp; destruct (compute_einsum_shape _ shapes) as [s|]; try discriminate.
  - destruct (map_opt _ _); inversion H; subst. now split.
  - inversion H; subst. now split.
Qed.

Lemma letter_of_alpha : forall axes a c, letter_of axes a = Some c -> isalpha c = true.
Proof.
  intros axes a c H. unfold letter_of in H. destruct (mem a axes); [|discriminate].
  apply nth_error_In in H. unfold alphabet in H. apply in_seq in H.
  unfold isalpha. rewrite orb_true_iff, !andb_true_iff, !Nat.leb_le. lia.
Qed.

Lemma name_axes_letters : forall t axes axes' rep, name_axes axes t = Some (axes', rep) -> letters rep.
Proof.
  induction t as [|a t IH]; intros axes axes' rep H; cbn in H.
  - inversion H. reflexivity.
  - destruct (letter_of _ a) as [c|] eqn:E; [|discriminate].
    destruct (name_axes _ t) as [[ax r]|] eqn:E2; [|discriminate]. inversion H; subst.
    unfold letters. cbn. rewrite (letter_of_alpha _ _ _ E). exact (IH _ _ _ E2).
Qed.

Lemma name_tuples_letters : forall ts axes axes' reps, name_tuples axes ts = Some (axes', reps) ->
  (forall r, In r reps -> letters r) /\ length reps = length ts.
Proof.
  induction ts as [|t ts IH]; intros axes axes' reps H; cbn in H.
  - inversion H. now split.
  - destruct (name_axes axes t) as [[ax rep]|] eqn:E; [|discriminate].
    destruct (name_tuples ax ts) as [[ax' rs]|] eqn:E2; [|discriminate]. inversion H; subst.
    destruct (IH _ _ _ E2) as [H1 H2]. split; [|cbn; congruence].
    intros r [<-|Hr]; [exact (name_axes_letters _ _ _ _ E)|auto].
Qed.

Lemma map_opt_letters : forall axes l out, map_opt (letter_of axes) l = Some out -> letters out.
Proof.
  intros axes. induction l as [|a l IH]; intros out H; cbn in H.
  - inversion H. reflexivity.
  - destruct (letter_of axes a) as [c|] eqn:E; [|discriminate].
    destruct (map_opt (letter_of axes) l) as [o|]; [|discriminate]. inversion H; subst.
    unfold letters. cbn. rewrite (letter_of_alpha _ _ _ E). now apply IH.
Qed.

(** The list and the string of the tuple form describe one shape. *)
Lemma new_subscripts_shape : forall tuples sc aslist str shapes,
  new_subscripts tuples sc = Some (aslist, str) ->
  compute_einsum_shape aslist shapes = einsum_shape str shapes.
Proof.
  intros tuples sc aslist str shapes H. unfold new_subscripts in H.
  set (num := if sc then length tuples else length tuples - 1) in *.
  destruct (name_tuples [] (firstn num tuples)) as [[axes reps]|] eqn:E; [|discriminate].
  destruct (if Nat.eqb (length tuples) (num + 1) then _ else _) as [out|] eqn:Eo; [|discriminate].
  inversion H; subst aslist str. clear H.
  destruct (name_tuples_letters _ _ _ _ E) as [Hl Hn].
  assert (Ho : letters out).
  { destruct (Nat.eqb _ _); [exact (map_opt_letters _ _ _ Eo)|]. inversion Eo. reflexivity. }
  unfold einsum_shape. destruct reps as [|r reps].
  - assert (out = []) as ->.
    { destruct (firstn num tuples) as [|? ?]; [|discriminate]. cbn in E. inversion E; subst.
      destruct (Nat.eqb _ _); [|now inversion Eo].
      destruct (last tuples []) as [|a l]; cbn in Eo; [now inversion Eo|discriminate]. }
    reflexivity.
  - rewrite (tolist_is_parse _ (r :: reps) out); [reflexivity|].
    apply parse_to_string; auto. discriminate.
Qed.

Lemma shape_of_names : forall xs, NoDup (map x_name xs) ->
  map (shape_of_name (map x_name xs) (map x_shape xs)) (distinct (map x_name xs)) = map x_shape xs.
Proof.
  intros xs H. unfold distinct. rewrite dedup_id by exact H.
  apply nth_ext with (d := []) (d' := []); rewrite !map_length; [reflexivity|].
  intros i Hi.
  rewrite nth_indep with (d' := shape_of_name (map x_name xs) (map x_shape xs) 0) by (now rewrite !map_length).
  rewrite map_nth. unfold shape_of_name. f_equal.
  apply find_pos_nth; [exact H|now rewrite map_length].
Qed.
