(** Every documented call obeys the chain rule. *)
From Coq Require Import Reals Lra Lia Arith List Bool ZArith Permutation.
From Verif Require Import PyBase RSum NdArray NdEinsum Component JacSpec JacOpen CompReorder CompReduce CompProduct
  CompTensor CompRot CompEinsum CompEinsumSparse CompElem CompExtremum CompNorm CompCond StdCalls
  SpecElem SpecReduce SpecProduct SpecTensor SpecRot SpecReorder SpecEinsum SpecExtremum SpecNorm SpecShapes SpecStd
  SpecTotal TotalCalc TotalElem TotalLinear TotalRot TotalMore
  ElemProofs ArithProofs ReduceProofs ProductProofs CrossProofs RotProofs TensorProofs ReorderProofs
  ExtremumProofs NormProofs KeptProofs EinsumProofs EinsumNew EinsumSparseMain ShapeProofs ShapeMain.
Import ListNotations.
Local Open Scope nat_scope.

Definition as_documented (k : std_call) (dom : (nat -> nat -> R) -> Prop) (m : list (nd R) -> nd R -> Prop) : Prop :=
  exists c, std k = Some (c_out c, Some c) /\
    c_ins c = firstn (length (c_ins c)) (map snd (call_operands k)) /\
    correct_within dom c m /\ ruled dom c m.

Lemma done_within k s c dom m : std k = Some (s, Some c) -> ~ by_one_column k ->
  c_ins c = map snd (call_operands k) -> correct_within dom c m -> ruled dom c m -> as_documented k dom m.
Proof.
  intros H1 H2 H3 H4 H5. exists c. splits; auto.
  - rewrite H1. now rewrite (std_out _ _ _ H1 H2).
  - rewrite H3. rewrite firstn_all. reflexivity.
Qed.

Lemma done_correct k s c m : std k = Some (s, Some c) -> ~ by_one_column k ->
  c_ins c = map snd (call_operands k) -> correct c m -> ruled (fun _ => True) c m -> as_documented k everywhere m.
Proof.
  intros H1 H2 H3 H4 H5. apply done_within with (s := s) (c := c); auto. now apply correct_is_within.
Qed.

(** operands of one shape *)
Lemma like_last s xs : like s xs -> xs <> [] -> last_shape xs = s.
Proof. intros [_ H] N. destruct (last_shape_in xs N) as (x & Hin & ->). now apply H. Qed.

Lemma like_shapes_all s xs : like s xs -> map x_shape xs = repeat s (length xs).
Proof.
  intros [_ H]. induction xs as [|x xs IH]; [reflexivity|]. cbn. f_equal; [apply H; now left|].
  apply IH. intros y Hy. apply H. now right.
Qed.

Lemma like_reduced s xs : like s xs -> 2 <= length xs -> reduced_shape xs None = Some s.
Proof.
  intros L N. assert (NE : xs <> []) by (destruct xs; [cbn in N; lia|discriminate]).
  pose proof (like_last s xs L NE) as E. unfold last_shape in E. unfold reduced_shape.
  destruct (rev xs) as [|x [|y r]] eqn:R; [|exfalso|now rewrite E].
  - apply (f_equal (@length _)) in R. rewrite rev_length in R. cbn in R. lia.
  - apply (f_equal (@length _)) in R. rewrite rev_length in R. cbn in R. lia.
Qed.

Lemma like_axes s xs zs axes : like s xs -> xs <> [] -> Forall2 (axis_named (length s)) zs axes ->
  exists t, reduced_shape xs (Some zs) = Some t.
Proof.
  intros L NE A. pose proof (like_last s xs L NE) as E. unfold last_shape in E. unfold reduced_shape.
  destruct (rev xs) as [|x r] eqn:R.
  - apply (f_equal (@length _)) in R. rewrite rev_length in R. destruct xs; [congruence|discriminate].
  - unfold np_delete_axes. rewrite E, (norm_axes_named _ _ _ A). cbn [option_map]. destruct r; eauto.
Qed.

Lemma like_ins s xs : like s xs -> repeat s (length xs) = map snd (map name_shape xs).
Proof. intros L. rewrite names_shapes. symmetry. now apply like_shapes_all. Qed.

Lemma not_column_binop op a b : ~ by_one_column (KBinop op a b). Proof. exact (fun H => H). Qed.

(** ---- elementary functions and operators ---- *)

Lemma doc_elem e x : (e <> Sech /\ e <> Arcsin) \/ length (x_shape x) = 1 ->
  as_documented (KElem e x) (all_entries (size (x_shape x)) (elem_dom e)) (entries1 (fun _ => elem_rel e)).
Proof.
  intros H.
  assert (C : correct_within (all_entries (size (x_shape x)) (elem_dom e)) (elem_comp e (x_shape x))
                 (entries1 (fun _ => elem_rel e))).
  { apply elem_correct. destruct H as [[H1 H2]|H]; [left|now right]. destruct e; try reflexivity; congruence. }
  apply done_within with (s := x_shape x) (c := elem_comp e (x_shape x)); try reflexivity; auto.
  apply chain_entries1 with (rel := fun _ => elem_rel e); try reflexivity; auto.
  - apply elem_dom_open.
  - intros _ a y y'. apply elem_functional.
Qed.

Lemma doc_binop op a b s c dom m : py_binop op a b = Expr s (Some (Some c)) ->
  c_ins c = map snd (call_operands (KBinop op a b)) -> correct_within dom c m -> ruled dom c m ->
  as_documented (KBinop op a b) dom m.
Proof.
  intros H1 H2 H3 H4. apply done_within with (s := s) (c := c); auto. cbn [std]. now rewrite H1.
Qed.

Lemma open_any : open_set (fun _ : R => True).
Proof. intros x _. exists 1%R. split; [lra|auto]. Qed.

Lemma entries_everywhere c m n : correct c m -> correct_within (all_entries n (fun _ => True)) c m.
Proof.
  intros C. destruct (correct_is_within _ _ C) as [O (F & H1 & H2)]. split.
  - intros v p i _ _ _. exists 1%R. split; [lra|]. intros t _ o _. exact I.
  - exists F. split; [intros v _; now apply H1|intros v p _; now apply H2].
Qed.

Lemma chain_everywhere c m n : ruled (all_entries n (fun _ => True)) c m -> ruled everywhere c m.
Proof.
  intros [H H']. split.
  - intros g d t0 M _. apply H; [assumption|]. intros o _. exact I.
  - intros v y y' o _. apply H'. intros k _. exact I.
Qed.

Lemma chain_total1 c s (rel : list nat -> R -> R -> Prop) : c_ins c = [s] -> c_out c = s ->
  (forall idx x y y', rel idx x y -> rel idx x y' -> y = y') ->
  correct c (entries1 rel) -> ruled everywhere c (entries1 rel).
Proof.
  intros H1 H2 F C. apply chain_everywhere with (n := size s).
  apply chain_entries1 with (rel := rel); auto using open_any, entries_everywhere.
  intros idx x y y' _. apply F.
Qed.

Lemma doc_two op n m s : op = Add \/ op = Sub \/ op = Mul -> n <> m ->
  as_documented (KBinop op (OVar n s) (OVar m s)) everywhere (entries2 (op_rel op)).
Proof.
  intros O N.
  assert (exists c, py_binop op (OVar n s) (OVar m s) = Expr s (Some (Some c)) /\
    c_ins c = [s; s] /\ c_out c = s /\ correct c (entries2 (op_rel op))) as (c & H1 & H2 & H3 & H4).
  { destruct O as [->|[->| ->]]; [apply linear_exprs; auto|apply linear_exprs; auto|now apply mul_exprs]. }
  apply doc_binop with (s := s) (c := c); auto; [now apply correct_is_within|].
  destruct O as [->|[->| ->]].
  - apply chain_entries2 with (s := s) (rel := op_rel Add) (h := fun a b => (a + b)%R); auto.
    + apply stays_true.
    + intros v o _ Ho. apply smooth_plus; apply smooth_entry; cbn; auto.
    + now apply correct_is_within.
  - apply chain_entries2 with (s := s) (rel := op_rel Sub) (h := fun a b => (a - b)%R); auto.
    + apply stays_true.
    + intros v o y _ _ Hr. cbn in Hr. lra.
    + intros v o _ Ho. apply smooth_minus; apply smooth_entry; cbn; auto.
    + now apply correct_is_within.
  - apply chain_entries2 with (s := s) (rel := op_rel Mul) (h := fun a b => (a * b)%R); auto.
    + apply stays_true.
    + intros v o _ Ho. apply smooth_mult; apply smooth_entry; cbn; auto.
    + now apply correct_is_within.
Qed.

Lemma open_nonzero : open_set (fun x => x <> 0)%R.
Proof.
  intros x Hx. exists (Rabs x). split; [now apply Rabs_pos_lt|]. intros t Ht ->.
  rewrite Rminus_0_l, Rabs_Ropp in Ht. lra.
Qed.

Lemma doc_quotient n m s : n <> m ->
  as_documented (KBinop Div (OVar n s) (OVar m s)) (fun v => forall o, o < size s -> v 1 o <> 0%R) (entries2 (op_rel Div)).
Proof.
  intros N. destruct (div_exprs n m s N) as (c & H1 & H2 & H3 & H4).
  apply doc_binop with (s := s) (c := c); auto.
  apply chain_entries2 with (s := s) (rel := op_rel Div) (h := fun a b => (a / b)%R); auto.
  - apply stays_entries with (P := fun x => (x <> 0)%R); cbn; auto using open_nonzero.
  - intros v o y D Ho Hr. cbn in Hr. rewrite <- Hr. field. now apply D.
  - intros v o D Ho. apply smooth_div; [apply smooth_entry; cbn; auto..|]. now apply D.
Qed.

Lemma doc_number_right op n s k : op = Add \/ op = Sub \/ op = Mul \/ (op = Div /\ k <> 0%R) ->
  as_documented (KBinop op (OVar n s) (ONum k)) everywhere (entries1 (fun _ x y => op_rel op x k y)).
Proof.
  intros O.
  assert (exists c, py_binop op (OVar n s) (ONum k) = Expr s (Some (Some c)) /\
    c_ins c = [s] /\ c_out c = s /\ correct c (entries1 (fun _ x y => op_rel op x k y))) as (c & H1 & H2 & H3 & H4).
  { destruct O as [->|[->|[->|[-> Hk]]]];
      [apply linear_right_number; auto|apply linear_right_number; auto|apply scale_number; auto|apply scale_number; auto]. }
  apply doc_binop with (s := s) (c := c); auto; [now apply correct_is_within|].
  apply chain_total1 with (2 := H3) (4 := H4); auto. intros _ x y y'.
  destruct O as [->|[->|[->|[-> Hk]]]]; cbn; intros A B; try lra.
  apply Rmult_eq_reg_r with k; [|assumption]. lra.
Qed.

Lemma doc_number_left op n s k : op = Add \/ op = Sub \/ op = Mul ->
  as_documented (KBinop op (ONum k) (OVar n s)) everywhere (entries1 (fun _ x y => op_rel op k x y)).
Proof.
  intros O.
  assert (exists c, py_binop op (ONum k) (OVar n s) = Expr s (Some (Some c)) /\
    c_ins c = [s] /\ c_out c = s /\ correct c (entries1 (fun _ x y => op_rel op k x y))) as (c & H1 & H2 & H3 & H4).
  { destruct O as [->|[->| ->]]; [apply linear_left_number; auto|apply linear_left_number; auto|apply scale_left_number]. }
  apply doc_binop with (s := s) (c := c); auto; [now apply correct_is_within|].
  apply chain_total1 with (2 := H3) (4 := H4); auto. intros _ x y y'.
  destruct O as [->|[->| ->]]; cbn; intros A B; lra.
Qed.

Lemma doc_number_over n s k :
  as_documented (KBinop Div (ONum k) (OVar n s)) (all_entries (size s) (fun x => x <> 0%R))
               (entries1 (fun _ x y => op_rel Div k x y)).
Proof.
  destruct (div_left_number n s k) as (c & H1 & H2 & H3 & H4).
  apply doc_binop with (s := s) (c := c); auto.
  apply chain_entries1 with (2 := H3) (5 := H4); auto using open_nonzero.
  intros _ x y y' Hx A B. cbn in A, B. apply Rmult_eq_reg_r with x; [|assumption]. lra.
Qed.

Lemma doc_array_right op n s a : op = Add \/ op = Sub -> shp a = s ->
  as_documented (KBinop op (OVar n s) (OArr a)) everywhere (entries1 (fun idx x y => op_rel op x (get a idx) y)).
Proof.
  intros O Ha. destruct (linear_right_array op n s a O Ha) as (c & H1 & H2 & H3 & H4).
  apply doc_binop with (s := s) (c := c); auto; [now apply correct_is_within|].
  apply chain_total1 with (2 := H3) (4 := H4); auto. intros idx x y y'.
  destruct O as [->| ->]; cbn; intros A B; lra.
Qed.

Lemma doc_power n s k :
  as_documented (KBinop Pow (OVar n s) (ONum k)) (all_entries (size s) (power_dom k)) (entries1 (fun _ => power_rel k)).
Proof.
  destruct (power_number n s k) as (c & H1 & H2 & H3 & H4).
  apply doc_binop with (s := s) (c := c); auto.
  apply chain_entries1 with (2 := H3) (5 := H4); auto using power_dom_open.
  intros _ x y y'. apply power_functional.
Qed.

Lemma doc_neg n s : as_documented (KNeg (OVar n s)) everywhere (entries1 (fun _ x y => y = - x)%R).
Proof.
  destruct (neg_expr n s) as (c & H1 & H2 & H3 & H4).
  apply done_within with (s := s) (c := c); auto; [cbn [std]; now rewrite H1|now apply correct_is_within|].
  apply chain_total1 with (2 := H3) (4 := H4); auto. intros; lra.
Qed.

(** ---- reductions ---- *)

Lemma doc_sum_all x : as_documented (KSum [x] None) everywhere sum_all_meaning.
Proof.
  destruct (sum_all_lemma (x_shape x)) as (c & H1 & H2 & H3 & H4).
  apply done_correct with (s := [1]) (c := c); auto.
  - cbn [std]. rewrite distinct_same by (cbn; repeat constructor; auto). cbn [length last_shape rev app].
    now rewrite H1.
  - now apply chain_sum_all with (s := x_shape x).
Qed.

Lemma doc_average_all x : as_documented (KAverage [x] None) everywhere average_all_meaning.
Proof.
  destruct (average_all_lemma (x_shape x)) as (c & H1 & H2 & H3 & H4).
  apply done_correct with (s := [1]) (c := c); auto.
  - cbn [std]. rewrite distinct_same by (cbn; repeat constructor; auto). cbn [length last_shape rev app].
    now rewrite H1.
  - now apply chain_average_all with (s := x_shape x).
Qed.

Lemma nonempty (xs : list expr_facts) : 2 <= length xs -> xs <> [].
Proof. destruct xs; [cbn; lia|discriminate]. Qed.

Lemma nonempty1 (xs : list expr_facts) : xs <> [] -> 1 <= length xs.
Proof. destruct xs; [congruence|cbn; lia]. Qed.

Lemma doc_sum_elementwise s xs : like s xs -> 2 <= length xs ->
  as_documented (KSum xs None) everywhere sum_elementwise_meaning.
Proof.
  intros L N. destruct (sum_elementwise_lemma s (length xs) N) as (c & H1 & H2 & H3 & H4).
  apply done_correct with (s := s) (c := c); auto.
  - cbn [std]. rewrite distinct_same by apply L. rewrite (like_last s xs L (nonempty xs N)), H1.
    now rewrite (like_reduced s xs L N).
  - rewrite H2. now apply like_ins.
  - now apply chain_sum_elementwise with (s := s) (n := length xs).
Qed.

Lemma doc_average_elementwise s xs : like s xs -> 2 <= length xs ->
  as_documented (KAverage xs None) everywhere average_elementwise_meaning.
Proof.
  intros L N. destruct (average_elementwise_lemma s (length xs) N) as (c & H1 & H2 & H3 & H4).
  apply done_correct with (s := s) (c := c); auto.
  - cbn [std]. rewrite distinct_same by apply L. rewrite (like_last s xs L (nonempty xs N)), H1.
    now rewrite (like_reduced s xs L N).
  - rewrite H2. now apply like_ins.
  - now apply chain_average_elementwise with (s := s) (n := length xs).
Qed.

Lemma doc_sum_axes s xs zs axes : like s xs -> xs <> [] ->
  Forall2 (axis_named (length s)) zs axes -> NoDup axes -> length axes < length s ->
  as_documented (KSum xs (Some zs)) everywhere (sum_axes_meaning axes).
Proof.
  intros L N A ND LT. destruct (sum_axes_correct s (length xs) zs axes (nonempty1 xs N) A ND LT) as (c & H1 & H2 & H3 & H4).
  destruct (like_axes s xs zs axes L N A) as (t & Ht).
  apply done_correct with (s := t) (c := c); auto.
  - cbn [std]. rewrite distinct_same by apply L. rewrite (like_last s xs L N), H1. now rewrite Ht.
  - rewrite H2. now apply like_ins.
  - now apply chain_sum_axes with (s := s) (n := length xs) (axes := axes).
Qed.

Lemma doc_average_axis s xs z a : like s xs -> xs <> [] -> 0 < size s -> axis_named (length s) z a -> 1 < length s ->
  as_documented (KAverage xs (Some [z])) everywhere (average_axes_meaning [a]).
Proof.
  intros L N P A LT.
  destruct (average_axis_correct s (length xs) z a (nonempty1 xs N) P A LT) as (c & H1 & H2 & H3 & H4).
  destruct (like_axes s xs [z] [a] L N) as (t & Ht); [constructor; [exact A|constructor]|].
  apply done_correct with (s := t) (c := c); auto.
  - cbn [std]. rewrite distinct_same by apply L. rewrite (like_last s xs L N), H1. now rewrite Ht.
  - rewrite H2. now apply like_ins.
  - now apply chain_average_axes with (s := s) (n := length xs) (axes := [a]).
Qed.

Lemma doc_ext_of neg s xs rho : like s xs -> 2 <= length xs -> (0 < rho)%R ->
  as_documented (KExtremum neg xs None rho) everywhere (ext_elementwise neg rho).
Proof.
  intros L N P.
  destruct (extremum_elementwise neg (map name_shape xs) s rho) as (c & H1 & H2 & H3 & H4 & _); auto.
  - now rewrite map_length.
  - rewrite names_names. apply L.
  - apply Forall_forall. intros p Hp. apply in_map_iff in Hp as (x & <- & Hx). now apply L.
  - apply done_correct with (s := s) (c := c); auto.
    + rewrite H2, map_length. now apply like_ins.
    + now apply chain_ext_elementwise with (s := s) (n := length (map name_shape xs)) (neg := neg) (rho := rho).
Qed.

Lemma doc_ext_along neg x z a rho : axis_named (length (x_shape x)) z a -> 0 < nth a (x_shape x) 0 ->
  length (x_shape x) <= 12 -> (0 < rho)%R ->
  as_documented (KExtremum neg [x] (Some z) rho) everywhere (ext_axis neg rho a).
Proof.
  intros A NZ L P. destruct (extremum_axis neg (x_name x) (x_shape x) z a rho A NZ L P) as (c & H1 & H2 & H3 & H4 & _).
  apply done_correct with (s := drop_axes [a] (x_shape x)) (c := c); auto.
  now apply chain_ext_axis with (s := x_shape x) (neg := neg) (rho := rho) (a := a).
Qed.

Lemma doc_ext_entries neg x rho : 0 < size (x_shape x) -> (0 < rho)%R ->
  as_documented (KExtremum neg [x] None rho) everywhere (ext_all neg rho).
Proof.
  intros L P. destruct (extremum_all neg (x_name x) (x_shape x) rho L P) as (c & H1 & H2 & H3 & H4 & _).
  apply done_correct with (s := [1]) (c := c); auto.
  now apply chain_ext_all with (s := x_shape x) (neg := neg) (rho := rho).
Qed.

Lemma doc_norm x m : 1 <= m ->
  as_documented (KNorm x (Z.of_nat (2 * m)) NormAll) (norm_nonzero (x_shape x)) (norm_meaning m).
Proof.
  intros M. destruct (pnorm_all (x_shape x) m M) as (c & H1 & H2 & H3 & _ & H4).
  apply done_within with (s := [1]) (c := c); auto. now apply chain_norm_all with (m := m).
Qed.

Lemma doc_norm_along x m zs axes : 1 <= m -> Forall2 (axis_named (length (x_shape x))) zs axes -> NoDup axes ->
  length axes < length (x_shape x) <= 26 ->
  as_documented (KNorm x (Z.of_nat (2 * m)) (NormAxes zs)) (axis_norm_nonzero (x_shape x) axes) (axis_norm_meaning m axes).
Proof.
  intros M A ND L. destruct (pnorm_axes (x_shape x) m zs axes M A ND L) as (c & H1 & H2 & H3 & _ & H4).
  apply done_within with (s := drop_axes axes (x_shape x)) (c := c); auto. now apply chain_norm_axes with (m := m).
Qed.

(** ---- products ---- *)

Lemma doc_inner_vectors x y n axes : other x y -> x_shape x = [n] -> x_shape y = [n] ->
  as_documented (KInner x y axes) everywhere (vector_inner_meaning n).
Proof.
  intros O Hx Hy. apply done_correct with (s := [1]) (c := vector_inner_comp n); auto.
  - cbn [std]. rewrite distinct_same by now apply two_names. rewrite Hx, Hy, inner_vectors. reflexivity.
  - cbn. now rewrite Hx, Hy.
  - apply vector_inner_correct.
  - apply chain_vector_inner with (n := n); try reflexivity. apply vector_inner_correct.
Qed.

Lemma doc_inner_tensors x y z0 z1 a0 a1 : other x y -> not_both_vectors (x_shape x) (x_shape y) ->
  paired (x_shape x) (x_shape y) z0 z1 a0 a1 -> Forall (fun z => 0 <= z)%Z z0 -> Forall (fun z => 0 <= z)%Z z1 ->
  as_documented (KInner x y (Some (z0, z1))) everywhere (inner_meaning a0 a1).
Proof.
  intros O NV P F0 F1. destruct (inner_exact _ _ _ _ _ _ NV P F0 F1) as (c & H1 & H2 & H3 & H4).
  assert (SH : exists t, inner_shape (x_shape x) (x_shape y) (Some (z0, z1)) = Some t).
  { destruct P as (A0 & A1 & _). unfold inner_shape, np_delete_axes.
    rewrite (norm_axes_named _ _ _ A0), (norm_axes_named _ _ _ A1). cbn [option_map].
    destruct (x_shape x) as [|n [|]], (x_shape y) as [|m [|]]; eexists; reflexivity. }
  destruct SH as (t & Ht). apply done_correct with (s := t) (c := c); auto.
  - cbn [std]. rewrite distinct_same by now apply two_names. rewrite Ht, H1. reflexivity.
  - now apply chain_inner with (1 := H2) (2 := H4).
Qed.

Lemma doc_dot_vectors x y n axis : other x y -> x_shape x = [n] -> x_shape y = [n] ->
  as_documented (KDot x y axis) everywhere (vector_inner_meaning n).
Proof.
  intros O Hx Hy. destruct (dot_vectors_correct n axis) as (c & H1 & H2 & H4).
  assert (Ho : c_out c = [1]).
  { destruct H4 as (F & H4 & _). destruct (H4 (fun _ _ => 0%R)) as [_ (a & b & _ & _ & _ & E & _)]. exact E. }
  apply done_correct with (s := [1]) (c := c); auto.
  - cbn [std]. rewrite distinct_same by now apply two_names. rewrite Hx, Hy, H1.
    unfold dot_shape. destruct (list_eq_dec Nat.eq_dec [n] [n]); [reflexivity|congruence].
  - rewrite H2. cbn. now rewrite Hx, Hy.
  - now apply chain_vector_inner with (n := n).
Qed.

Lemma doc_dot_tensors x y s z a : other x y -> x_shape x = s -> x_shape y = s ->
  2 <= length s -> axis_named (length s) z a -> nth a s 0 = 3 ->
  as_documented (KDot x y (Some z)) everywhere (dot_meaning a).
Proof.
  intros O Hx Hy L A N. destruct (dot_tensors_correct s z a L A N) as (c & H1 & H2 & H3 & H4).
  assert (SH : exists t, dot_shape s s (Some z) = Some t).
  { unfold dot_shape. destruct (list_eq_dec Nat.eq_dec s s); [|congruence].
    assert (AN : norm_axes (length s) [z] = Some [a]) by (apply norm_axes_named; constructor; [exact A|constructor]).
    unfold np_delete_axes. rewrite AN. cbn [norm_axes] in AN. destruct (norm_axis (length s) z) as [a'|]; [|discriminate].
    injection AN as ->. rewrite N. destruct s as [|s0 [|s1 r]]; eexists; reflexivity. }
  destruct SH as (t & Ht). apply done_correct with (s := t) (c := c); auto.
  - cbn [std]. rewrite distinct_same by now apply two_names. rewrite Hx, Hy, H1, Ht. reflexivity.
  - rewrite H2. cbn. now rewrite Hx, Hy.
  - apply chain_dot with (s := s) (a := a); auto.
    destruct H4 as (F & H4 & _). destruct (H4 (fun _ _ => 0%R)) as [_ (x1 & x2 & E & _ & E2 & _)].
    rewrite H2 in E. cbn in E. injection E as <- <-. exact E2.
Qed.

Lemma doc_outer x y : other x y -> length (x_shape x) + length (x_shape y) <= 26 ->
  as_documented (KOuter x y) everywhere outer_meaning.
Proof.
  intros O L. destruct (outer_correct _ _ L) as (H2 & H3 & H4).
  apply done_correct with (s := outer_shape (x_shape x) (x_shape y)) (c := outer_comp (x_shape x) (x_shape y)); auto.
  - cbn [std]. rewrite distinct_same by now apply two_names. reflexivity.
  - now apply chain_outer with (s0 := x_shape x) (s1 := x_shape y).
Qed.

Lemma doc_matvec x y m n : other x y -> x_shape x = [m; n] -> x_shape y = [n] ->
  as_documented (KMatvec x y) everywhere (matvec_meaning m n).
Proof.
  intros O Hx Hy. destruct (matvec_correct m n) as (c & H1 & H2 & H3 & H4).
  apply done_correct with (s := [m]) (c := c); auto.
  - cbn [std]. rewrite Hx, Hy, H1. rewrite distinct_same by now apply two_names. reflexivity.
  - rewrite H2. cbn. now rewrite Hx, Hy.
  - now apply chain_matvec with (m := m) (n := n).
Qed.

Lemma doc_matmat x y m n p : other x y -> x_shape x = [m; n] -> x_shape y = [n; p] -> p <> 1 ->
  as_documented (KMatmat x y) everywhere (matmat_meaning m n p).
Proof.
  intros O Hx Hy P. destruct (matmat_correct m n p) as (c & H1 & H2 & H4).
  assert (H : std (KMatmat x y) = Some ([m; p], Some c)).
  { cbn [std]. rewrite Hx, Hy, H1. rewrite distinct_same by now apply two_names. unfold reshape_val_ok. now rewrite Hy. }
  assert (NC : ~ by_one_column (KMatmat x y)).
  { cbn. rewrite Hy. intros [(q & E)|(q & E)]; [discriminate|]. injection E as _ E. contradiction. }
  apply done_correct with (s := [m; p]) (c := c); auto.
  - rewrite H2. cbn. now rewrite Hx, Hy.
  - apply chain_matmat with (m := m) (n := n) (p := p); auto. now apply std_out with (1 := H).
Qed.

Lemma doc_cross x y s axis : other x y -> x_shape x = s -> x_shape y = s ->
  nth_error s axis = Some 3 -> length s <= 11 ->
  as_documented (KCross x y axis) everywhere (cross_meaning axis).
Proof.
  intros O Hx Hy N L. destruct (cross_correct s axis N L) as (c & H1 & H2 & H3 & H4).
  apply done_correct with (s := s) (c := c); auto.
  - cbn [std]. rewrite distinct_same by now apply two_names. rewrite Hx, Hy, H1, N.
    destruct (list_eq_dec Nat.eq_dec s s); [reflexivity|congruence].
  - rewrite H2. cbn. now rewrite Hx, Hy.
  - assert (exists rest, s = with_axis axis 3 rest) as (rest & E).
    { destruct H4 as (F & H4 & _). destruct (H4 (fun _ _ => 0%R)) as [_ (x1 & x2 & rest & _ & _ & _ & E & _)].
      rewrite H3 in E. eauto. }
    rewrite E in H2, H3. now apply chain_cross with (rest := rest) (a := axis).
Qed.

Lemma doc_rot x k : k < 3 -> as_documented (KRot x (120 + k)) everywhere (rotmat_meaning k).
Proof.
  intros K. destruct (rotmat_correct (x_shape x) k K) as (H2 & H4).
  apply done_correct with (s := rot_out_shape (x_shape x)) (c := rot_comp (x_shape x) (axis_char k)); auto.
  now apply chain_rot with (s := x_shape x) (k := k).
Qed.

(** ---- shapes ---- *)

Lemma doc_reshape x s : size (x_shape x) = size s -> as_documented (KReshape x s) everywhere reshape_meaning.
Proof.
  intros E. apply done_correct with (s := s) (c := reshape_comp (x_shape x) s); auto.
  - now apply reshape_correct.
  - apply chain_moved with (s := x_shape x) (meaning := reshape_meaning); [reflexivity|now apply reshape_correct|].
    intros o H. exists o. change (c_out (reshape_comp (x_shape x) s)) with s in *. split; [lia|].
    intros u y Hs. now apply reshape_moves with (out := s).
Qed.

Lemma doc_transpose x : as_documented (KTranspose x) everywhere transpose_meaning.
Proof.
  apply done_correct with (s := rev (x_shape x)) (c := transpose_comp (x_shape x)); auto.
  - apply transpose_correct.
  - apply chain_moved with (s := x_shape x) (meaning := transpose_meaning); [reflexivity|apply transpose_correct|].
    intros o H. now apply transpose_moves.
Qed.

Lemma doc_reorder x op ins outs : spells op ins outs -> letters ins -> NoDup ins -> length ins = length (x_shape x) ->
  Permutation ins outs -> as_documented (KReorder x op) everywhere (letters_meaning ins outs).
Proof.
  intros Sp Li ND L P. destruct (reorder_correct _ _ _ _ Sp Li ND L P) as (c & H1 & H2 & H4).
  assert (Hax : new_axes op = Some (map (find_pos ins) outs)).
  { apply new_axes_spells; try assumption.
    - intros l Hl. apply Li. now apply (Permutation_in _ (Permutation_sym P)).
    - intros l Hl. now apply (Permutation_in _ (Permutation_sym P)). }
  assert (exists t, reorder_std (x_shape x) op = Some t) as (t & Ht).
  { unfold reorder_comp, reorder_out_shape in H1. destruct (reorder_std (x_shape x) op); [eauto|discriminate]. }
  assert (H : std (KReorder x op) = Some (t, Some c)) by (cbn [std]; now rewrite H1, Ht).
  assert (Ho : c_out c = t) by now apply std_out with (1 := H).
  assert (Lt : length outs = length t).
  { unfold reorder_std in Ht. rewrite Hax in Ht. apply map_opt_length in Ht. now rewrite Ht, map_length. }
  apply done_correct with (s := t) (c := c); auto.
  apply chain_moved with (1 := H2) (2 := H4). intros o Hlt.
  apply letters_moves; auto.
  - now apply (Permutation_NoDup P).
  - congruence.
  - intros e IB. destruct H4 as (F & H4 & _). destruct (H4 (fun _ _ => 0%R)) as [_ (x0 & E & M)].
    rewrite H2 in E. cbn in E. injection E as <-. apply (M e). exact IB.
Qed.

Lemma doc_expand_scalar x s : x_shape x = [1] -> as_documented (KExpand x s None) everywhere fill_meaning.
Proof.
  intros Hx. destruct (expand_comp [1] s None) as [c|] eqn:E; [|discriminate].
  destruct (scalar_expand_correct _ _ _ E) as (Ho & H4).
  assert (Hi : c_ins c = [[1]]) by (unfold expand_comp in E; cbn in E; now injection E as <-).
  apply done_correct with (s := s) (c := c); auto.
  - cbn [std]. rewrite Hx, E. reflexivity.
  - rewrite Hi. cbn. now rewrite Hx.
  - apply chain_moved with (1 := Hi) (2 := H4). intros o H. exists 0. split; [cbn; auto|].
    intros u y Hs. apply fill_moves with (out := c_out c); auto.
Qed.

Lemma doc_expand_array x s ins outs : letters ins -> letters outs -> x_shape x <> [1] -> length s <= 10 ->
  length outs = length s -> NoDup outs -> filter (fun l => NdEinsum.mem l ins) outs = ins ->
  shape_at s (map (find_pos outs) ins) = x_shape x ->
  as_documented (KExpand x s (Some (ins ++ [45; 62] ++ outs))) everywhere (expand_meaning ins outs).
Proof.
  intros Li Lo NX Ls Lo' ND Fl Sh.
  destruct (expand_letters_correct (x_shape x) s ins outs Li Lo NX Ls Lo' ND Fl Sh) as (c & H1 & H2 & H3 & H4).
  apply done_correct with (s := s) (c := c); auto.
  - cbn [std]. rewrite H1. unfold expand_comp in H1. destruct (expand_std _ _ _); [reflexivity|discriminate].
  - apply chain_moved with (1 := H2) (2 := H4). intros o H. apply expand_moves; auto.
    + now rewrite H3.
    + intros e IB. destruct H4 as (F & H4 & _). destruct (H4 (fun _ _ => 0%R)) as [_ (x0 & E & M)].
      rewrite H2 in E. cbn in E. injection E as <-. now apply (M e).
Qed.

(** ---- einsum ---- *)

Lemma positions_self (names : list nat) : forall (args : list nat) k0,
  (forall i n, nth_error names i = Some n -> nth_error args (k0 + i) = Some n) ->
  Forall2 (fun n k => nth_error args k = Some n /\ k < length args) names (seq k0 (length names)).
Proof.
  induction names as [|n names IH]; intros args k0 H; cbn [length seq]; constructor.
  - assert (E : nth_error args k0 = Some n) by (rewrite <- (Nat.add_0_r k0); now apply H).
    split; [assumption|]. apply nth_error_Some. congruence.
  - apply IH. intros i m Hi. rewrite Nat.add_succ_comm. now apply H.
Qed.

Lemma subs_self (ext : nat -> nat) : forall (subs : list (list nat)) ss k0,
  (forall i s, nth_error subs i = Some s -> nth_error ss (k0 + i) = Some (map ext s)) ->
  Forall2 (fun s k => k < length ss /\ nth k ss [] = map ext s) subs (seq k0 (length subs)).
Proof.
  induction subs as [|s subs IH]; intros ss k0 H; cbn [length seq]; constructor.
  - assert (E : nth_error ss k0 = Some (map ext s)) by (rewrite <- (Nat.add_0_r k0); now apply H).
    split; [apply nth_error_Some; congruence|now apply nth_error_nth].
  - apply IH. intros i m Hi. rewrite Nat.add_succ_comm. now apply H.
Qed.

Lemma chain_einsum_distinct c subs out ext names :
  NoDup names -> NoDup out -> length subs = length names -> c_ins c = map (map ext) subs ->
  c_out c = (match out with [] => [1] | _ => map ext out end) ->
  correct c (einsum_meaning subs out ext names names) -> ruled everywhere c (einsum_meaning subs out ext names names).
Proof.
  intros ND NO L Hi Ho C.
  apply (chain_einsum c subs out ext names names (seq 0 (length names)) ND NO); auto.
  - rewrite Hi, map_length, L. apply positions_self. auto.
  - rewrite Hi, <- L. apply subs_self. intros i s H. cbn. now apply map_nth_error.
Qed.

Lemma fit_length ext subs xs : fit ext subs xs -> length subs = length (map x_name xs).
Proof. unfold fit. intros H. apply (f_equal (@length _)) in H. rewrite !map_length in *. congruence. Qed.

Lemma done_einsum sparse op xs c m : einsum_any sparse op (map x_name xs) (map x_shape xs) = Some c ->
  c_ins c = firstn (length (c_ins c)) (map x_shape xs) -> correct c m -> ruled everywhere c m ->
  as_documented (KEinsum sparse op xs) everywhere m.
Proof.
  intros H Hi C CH. exists c. splits.
  - cbn [std]. rewrite H. destruct (einsum_any_case _ _ _ _ _ H) as [-> _]. reflexivity.
  - cbn [call_operands]. now rewrite names_shapes.
  - now apply correct_is_within.
  - assumption.
Qed.

Lemma doc_einsum_dense op subs out ext xs : proper op subs out -> fit ext subs xs -> NoDup (map x_name xs) ->
  as_documented (KEinsum false op xs) everywhere (einsum_meaning subs out ext (map x_name xs) (map x_name xs)).
Proof.
  intros (P1 & P2 & P3 & P4) F ND. pose proof (fit_length _ _ _ F) as L.
  destruct (einsum_distinct op subs out ext (map x_name xs) P1 L ND P2 P3 P4) as (c & H1 & H2 & H3 & H4).
  apply done_einsum with (c := c); auto.
  - rewrite F. exact H1.
  - rewrite H2, F. now rewrite firstn_all.
  - now apply chain_einsum_distinct with (subs := subs) (out := out) (ext := ext) (names := map x_name xs).
Qed.

Lemma doc_einsum_sparse op subs out ext xs : proper op subs out -> fit ext subs xs -> NoDup (map x_name xs) ->
  (forall l, In l (concat subs) -> 0 < ext l) ->
  (forall q q', q < q' -> q' < length subs ->
     (exists l, In l (nth q' subs []) /\ In l out) -> exists l, In l (nth q subs []) /\ In l out) ->
  as_documented (KEinsum true op xs) everywhere (einsum_meaning subs out ext (map x_name xs) (map x_name xs)).
Proof.
  intros (P1 & P2 & P3 & P4) F ND E K. pose proof (fit_length _ _ _ F) as L.
  destruct (sparse_distinct op subs out ext (map x_name xs) P1 L ND P2 P3 P4 E K) as (c & H1 & H2 & H3 & H4).
  apply done_einsum with (c := c); auto.
  - rewrite F. exact H1.
  - rewrite H2, F. now rewrite firstn_all.
  - now apply chain_einsum_distinct with (subs := subs) (out := out) (ext := ext) (names := map x_name xs).
Qed.

(** repetitions *)
Lemma same_name_same (ds : list expr_facts) x y : NoDup (map x_name ds) -> In x ds -> In y ds ->
  x_name x = x_name y -> x = y.
Proof.
  induction ds as [|d ds IH]; intros ND Hx Hy E; [destruct Hx|]. inversion ND as [|? ? N1 N2]; subst.
  destruct Hx as [->|Hx], Hy as [->|Hy]; auto.
  - elim N1. rewrite E. now apply in_map.
  - elim N1. rewrite <- E. now apply in_map.
Qed.

Lemma repeated_shapes ext subs ds rs : fit ext subs (ds ++ rs) -> NoDup (map x_name ds) -> incl rs ds ->
  forall j j', j < length (map x_name (ds ++ rs)) -> j' < length (map x_name (ds ++ rs)) ->
     nth j (map x_name (ds ++ rs)) 0 = nth j' (map x_name (ds ++ rs)) 0 ->
     map ext (nth j subs []) = map ext (nth j' subs []).
Proof.
  intros F ND I j j' Hj Hj' E. pose proof (fit_length _ _ _ F) as L. rewrite map_length in *.
  set (d0 := Facts 0 [] []). 
  assert (IN : forall i, i < length (ds ++ rs) -> In (nth i (ds ++ rs) d0) ds).
  { intros i Hi. assert (H : In (nth i (ds ++ rs) d0) (ds ++ rs)) by now apply nth_In.
    apply in_app_or in H as [H|H]; auto. }
  assert (NM : forall i, i < length (ds ++ rs) -> nth i (map x_name (ds ++ rs)) 0 = x_name (nth i (ds ++ rs) d0)).
  { intros i Hi. change 0 with (x_name d0). apply map_nth. }
  assert (SH : forall i, i < length (ds ++ rs) -> map ext (nth i subs []) = x_shape (nth i (ds ++ rs) d0)).
  { intros i Hi. rewrite <- (map_nth x_shape). rewrite <- (map_nth (map ext)). unfold fit in F. now rewrite F. }
  rewrite !SH by assumption. rewrite !NM in E by assumption.
  f_equal. apply (same_name_same ds); auto.
Qed.

Lemma repeated_positions (ds xs : list expr_facts) : NoDup (map x_name ds) -> incl xs ds ->
  Forall2 (fun n k => nth_error (map x_name ds) k = Some n /\ k < length (map x_shape ds))
          (map x_name xs) (map (fun x => find_pos (map x_name ds) (x_name x)) xs).
Proof.
  intros ND. induction xs as [|x xs IH]; intros I; cbn [map]; constructor.
  - assert (Hx : In (x_name x) (map x_name ds)) by (apply in_map; apply I; now left).
    pose proof (find_pos_lt (map x_name ds) (x_name x) Hx) as Lt. split.
    + rewrite (nth_error_nth' _ 0 Lt). now rewrite nth_find_pos.
    + now rewrite map_length in *.
  - apply IH. intros y Hy. apply I. now right.
Qed.

Lemma repeated_subs (ext : nat -> nat) (ds : list expr_facts) : NoDup (map x_name ds) -> forall xs subs, incl xs ds ->
  map x_shape xs = map (map ext) subs ->
  Forall2 (fun s k => k < length (map x_shape ds) /\ nth k (map x_shape ds) [] = map ext s)
          subs (map (fun x => find_pos (map x_name ds) (x_name x)) xs).
Proof.
  intros ND. induction xs as [|x xs IH]; intros [|s subs] I F; cbn [map] in *; try discriminate; constructor.
  - injection F as F1 F2.
    assert (Hd : In x ds) by (apply I; now left).
    assert (Hx : In (x_name x) (map x_name ds)) by now apply in_map.
    pose proof (find_pos_lt (map x_name ds) (x_name x) Hx) as Lt. rewrite map_length in Lt.
    split; [now rewrite map_length|].
    set (k := find_pos (map x_name ds) (x_name x)) in *. rewrite <- F1.
    assert (E : nth k ds x = x).
    { apply (same_name_same ds); auto; [now apply nth_In|].
      rewrite <- (map_nth x_name). unfold k. now apply nth_find_pos. }
    rewrite nth_indep with (d' := x_shape x) by now rewrite map_length. rewrite map_nth. now rewrite E.
  - injection F as F1 F2. apply IH; auto. intros y Hy. apply I. now right.
Qed.

Lemma chain_einsum_repeated c subs out ext ds rs :
  NoDup (map x_name ds) -> incl rs ds -> NoDup out -> fit ext subs (ds ++ rs) -> c_ins c = map x_shape ds ->
  c_out c = (match out with [] => [1] | _ => map ext out end) ->
  correct c (einsum_meaning subs out ext (map x_name ds) (map x_name (ds ++ rs))) -> ruled everywhere c (einsum_meaning subs out ext (map x_name ds) (map x_name (ds ++ rs))).
Proof.
  intros ND I NO F Hi Ho C. assert (I' : incl (ds ++ rs) ds) by (apply incl_app; [apply incl_refl|assumption]).
  apply (chain_einsum c subs out ext (map x_name ds) (map x_name (ds ++ rs)) (map (fun x => find_pos (map x_name ds) (x_name x)) (ds ++ rs)) ND NO); auto.
  - rewrite Hi. now apply repeated_positions.
  - rewrite Hi. now apply repeated_subs.
Qed.

Lemma firstn_shapes ext subs ds rs : fit ext subs (ds ++ rs) ->
  firstn (length (map x_name ds)) (map (map ext) subs) = map x_shape ds.
Proof.
  intros F. rewrite <- F, map_app, firstn_app, !map_length.
  rewrite Nat.sub_diag, firstn_O, app_nil_r. apply firstn_all2. now rewrite map_length.
Qed.

Lemma incl_names (rs ds : list expr_facts) : incl rs ds -> incl (map x_name rs) (map x_name ds).
Proof. intros I n Hn. apply in_map_iff in Hn as (x & <- & Hx). apply in_map. now apply I. Qed.

Lemma doc_einsum_dense_repeated op subs out ext ds rs : proper op subs out -> fit ext subs (ds ++ rs) ->
  NoDup (map x_name ds) -> incl rs ds ->
  as_documented (KEinsum false op (ds ++ rs)) everywhere
               (einsum_meaning subs out ext (map x_name ds) (map x_name (ds ++ rs))).
Proof.
  intros (P1 & P2 & P3 & P4) F ND I. pose proof (fit_length _ _ _ F) as L.
  pose proof (repeated_shapes _ _ _ _ F ND I) as RS. rewrite map_app in L, RS.
  destruct (einsum_repeated_last op subs out ext (map x_name ds) (map x_name rs) P1 L ND (incl_names _ _ I) RS P2 P3 P4)
    as (c & H1 & H2 & H3 & H4).
  rewrite (firstn_shapes _ _ _ _ F) in H2. rewrite <- map_app in H1, H4.
  apply done_einsum with (c := c); auto.
  - rewrite F. exact H1.
  - rewrite H2, map_length, map_app, firstn_app, map_length, Nat.sub_diag, firstn_O, app_nil_r.
    symmetry. apply firstn_all2. now rewrite map_length.
  - now apply chain_einsum_repeated with (subs := subs) (out := out) (ext := ext) (ds := ds) (rs := rs).
Qed.

Lemma doc_einsum_sparse_repeated op subs out ext ds rs : proper op subs out -> fit ext subs (ds ++ rs) ->
  NoDup (map x_name ds) -> incl rs ds ->
  (forall l, In l (concat subs) -> 0 < ext l) ->
  (forall q q', q < q' -> q' < length ds ->
     keeps subs out (map x_name (ds ++ rs)) (nth q' (map x_name ds) 0) ->
     keeps subs out (map x_name (ds ++ rs)) (nth q (map x_name ds) 0)) ->
  as_documented (KEinsum true op (ds ++ rs)) everywhere
               (einsum_meaning subs out ext (map x_name ds) (map x_name (ds ++ rs))).
Proof.
  intros (P1 & P2 & P3 & P4) F ND I E K. pose proof (fit_length _ _ _ F) as L.
  pose proof (repeated_shapes _ _ _ _ F ND I) as RS. rewrite map_app in L, RS, K.
  assert (K' : forall q q', q < q' -> q' < length (map x_name ds) ->
     keeps subs out (map x_name ds ++ map x_name rs) (nth q' (map x_name ds) 0) ->
     keeps subs out (map x_name ds ++ map x_name rs) (nth q (map x_name ds) 0)) by (now rewrite map_length).
  destruct (sparse_repeated_last op subs out ext (map x_name ds) (map x_name rs) P1 L ND (incl_names _ _ I) RS P2 P3 P4 E K')
    as (c & H1 & H2 & H3 & H4).
  rewrite (firstn_shapes _ _ _ _ F) in H2. rewrite <- map_app in H1, H4.
  apply done_einsum with (c := c); auto.
  - rewrite F. exact H1.
  - rewrite H2, map_length, map_app, firstn_app, map_length, Nat.sub_diag, firstn_O, app_nil_r.
    symmetry. apply firstn_all2. now rewrite map_length.
  - now apply chain_einsum_repeated with (subs := subs) (out := out) (ext := ext) (ds := ds) (rs := rs).
Qed.

Lemma doc_einsum_tuples ins out ext xs (scalar : bool) : ins <> [] -> NoDup (map x_name xs) ->
  NoDup out -> incl out (concat ins) -> (scalar = true -> out = []) ->
  (forall t, In t ins -> length t + length (dedup (concat ins)) <= 26) -> fit ext ins xs ->
  as_documented (KEinsumNew false (if scalar then ins else ins ++ [out]) xs) everywhere
               (einsum_meaning ins out ext (map x_name xs) (map x_name xs)).
Proof.
  intros NE ND NO I SC LE F. pose proof (fit_length _ _ _ F) as L.
  destruct (einsum_new_correct ins out ext (map x_name xs) scalar NE L ND NO I SC LE) as (c & H1 & H2 & H3 & H4).
  assert (H : exists t, std (KEinsumNew false (if scalar then ins else ins ++ [out]) xs) = Some (t, Some c)).
  { cbn [std]. rewrite F. unfold einsum_new_comp in H1. unfold einsum_new_shape, einsum_new_any.
    destruct (new_subscripts _ _) as [[aslist str]|] eqn:E; [|discriminate].
    cbn [einsum_any]. rewrite H1. rewrite (new_subscripts_shape _ _ _ _ _ E).
    assert (HH : einsum_any false str (map x_name xs) (map (map ext) ins) = Some c) by exact H1.
    destruct (einsum_any_case _ _ _ _ _ HH) as [-> _]. eexists. reflexivity. }
  destruct H as (t & H). apply done_correct with (s := t) (c := c); auto.
  - rewrite H2. cbn [call_operands]. now rewrite names_shapes.
  - now apply chain_einsum_distinct with (subs := ins) (out := out) (ext := ext) (names := map x_name xs).
Qed.

Theorem documented_chain : forall k dom m, documented k dom m ->
  exists c, std k = Some (c_out c, Some c) /\
    c_ins c = firstn (length (c_ins c)) (map snd (call_operands k)) /\
    correct_within dom c m /\ chain_rule dom c /\ determined dom c m.
Proof.
  intros k dom m H. change (as_documented k dom m). destruct H.
  - now apply doc_elem.
  - now apply doc_two.
  - now apply doc_quotient.
  - now apply doc_number_right.
  - now apply doc_number_left.
  - apply doc_number_over.
  - now apply doc_array_right.
  - apply doc_power.
  - apply doc_neg.
  - apply doc_sum_all.
  - now apply doc_sum_elementwise with (s := s).
  - now apply doc_sum_axes with (s := s).
  - apply doc_average_all.
  - now apply doc_average_elementwise with (s := s).
  - now apply doc_average_axis with (s := s).
  - now apply doc_ext_of with (s := s).
  - now apply doc_ext_along.
  - now apply doc_ext_entries.
  - now apply doc_norm.
  - now apply doc_norm_along.
  - now apply doc_inner_vectors.
  - now apply doc_inner_tensors.
  - now apply doc_dot_vectors.
  - now apply doc_dot_tensors with (s := s).
  - now apply doc_outer.
  - now apply doc_matvec.
  - now apply doc_matmat.
  - now apply doc_cross with (s := s).
  - now apply doc_rot.
  - now apply doc_reshape.
  - apply doc_transpose.
  - now apply doc_reorder.
  - now apply doc_expand_scalar.
  - now apply doc_expand_array.
  - now apply doc_einsum_dense.
  - now apply doc_einsum_dense_repeated.
  - now apply doc_einsum_sparse.
  - now apply doc_einsum_sparse_repeated.
  - now apply doc_einsum_tuples.
Qed.
