(** The calls whose result, inputs and derivatives are as documented: the call,
    the inputs for which the operation is differentiable, and what the component
    computes.  Every line repeats the hypotheses of a theorem in Properties_Elem.v,
    Properties_Reduce.v, Properties_Product.v, Properties_Tensor.v,
    Properties_Reorder.v, Properties_Extremum.v, Properties_Einsum.v or
    Properties_EinsumSparse.v. *)
From Coq Require Import Reals Arith List Bool ZArith Permutation.
From Verif Require Import PyBase RSum NdArray NdEinsum Component CompReorder CompElem CompNorm CompCond StdCalls
  CompEinsum SpecElem SpecReduce SpecProduct SpecTensor SpecRot SpecReorder SpecEinsum SpecExtremum SpecNorm.
Import ListNotations.
Local Open Scope nat_scope.

Definition everywhere (v : nat -> nat -> R) : Prop := True.

(** expressions with distinct names, all of shape [s] *)
Definition like (s : list nat) (xs : list expr_facts) : Prop :=
  NoDup (map x_name xs) /\ forall x, In x xs -> x_shape x = s.

Definition other (x y : expr_facts) : Prop := x_name x <> x_name y.

(** [xs] fit the subscripts [subs] with extents [ext] *)
Definition fit (ext : nat -> nat) (subs : list (list nat)) (xs : list expr_facts) : Prop :=
  map x_shape xs = map (map ext) subs.

(** the subscripts are proper: output letters occur once, and in the operands;
    enough letters remain for the derivatives *)
Definition proper (op : list nat) (subs : list (list nat)) (out : list nat) : Prop :=
  np_subscripts op = Some (subs, out) /\ NoDup out /\ incl out (concat subs) /\
  (forall r, In r subs -> length r <= length (unused_chars op)).

Inductive documented : std_call -> ((nat -> nat -> R) -> Prop) -> (list (nd R) -> nd R -> Prop) -> Prop :=
| elementary e x : (e <> Sech /\ e <> Arcsin) \/ length (x_shape x) = 1 ->
    documented (KElem e x) (all_entries (size (x_shape x)) (elem_dom e)) (entries1 (fun _ => elem_rel e))
| two_operands op n m s : op = Add \/ op = Sub \/ op = Mul -> n <> m ->
    documented (KBinop op (OVar n s) (OVar m s)) everywhere (entries2 (op_rel op))
| quotient n m s : n <> m ->
    documented (KBinop Div (OVar n s) (OVar m s)) (fun v => forall o, o < size s -> v 1 o <> 0%R) (entries2 (op_rel Div))
| number_right op n s k : op = Add \/ op = Sub \/ op = Mul \/ (op = Div /\ k <> 0%R) ->
    documented (KBinop op (OVar n s) (ONum k)) everywhere (entries1 (fun _ x y => op_rel op x k y))
| number_left op n s k : op = Add \/ op = Sub \/ op = Mul ->
    documented (KBinop op (ONum k) (OVar n s)) everywhere (entries1 (fun _ x y => op_rel op k x y))
| number_over n s k :
    documented (KBinop Div (ONum k) (OVar n s)) (all_entries (size s) (fun x => x <> 0%R))
               (entries1 (fun _ x y => op_rel Div k x y))
| array_right op n s a : op = Add \/ op = Sub -> shp a = s ->
    documented (KBinop op (OVar n s) (OArr a)) everywhere (entries1 (fun idx x y => op_rel op x (get a idx) y))
| power n s k :
    documented (KBinop Pow (OVar n s) (ONum k)) (all_entries (size s) (power_dom k)) (entries1 (fun _ => power_rel k))
| negation n s : documented (KNeg (OVar n s)) everywhere (entries1 (fun _ x y => y = - x)%R)
| sum_all x : documented (KSum [x] None) everywhere sum_all_meaning
| sum_elementwise s xs : like s xs -> 2 <= length xs ->
    documented (KSum xs None) everywhere sum_elementwise_meaning
| sum_axes s xs zs axes : like s xs -> xs <> [] ->
    Forall2 (axis_named (length s)) zs axes -> NoDup axes -> length axes < length s ->
    documented (KSum xs (Some zs)) everywhere (sum_axes_meaning axes)
| average_all x : documented (KAverage [x] None) everywhere average_all_meaning
| average_elementwise s xs : like s xs -> 2 <= length xs ->
    documented (KAverage xs None) everywhere average_elementwise_meaning
| average_axis s xs z a : like s xs -> xs <> [] -> 0 < size s -> axis_named (length s) z a -> 1 < length s ->
    documented (KAverage xs (Some [z])) everywhere (average_axes_meaning [a])
| extremum_of neg s xs rho : like s xs -> 2 <= length xs -> (0 < rho)%R ->
    documented (KExtremum neg xs None rho) everywhere (ext_elementwise neg rho)
| extremum_along neg x z a rho : axis_named (length (x_shape x)) z a -> 0 < nth a (x_shape x) 0 ->
    length (x_shape x) <= 12 -> (0 < rho)%R ->
    documented (KExtremum neg [x] (Some z) rho) everywhere (ext_axis neg rho a)
| extremum_entries neg x rho : 0 < size (x_shape x) -> (0 < rho)%R ->
    documented (KExtremum neg [x] None rho) everywhere (ext_all neg rho)
| norm_entries x m : 1 <= m ->
    documented (KNorm x (Z.of_nat (2 * m)) NormAll) (norm_nonzero (x_shape x)) (norm_meaning m)
| norm_along x m zs axes : 1 <= m -> Forall2 (axis_named (length (x_shape x))) zs axes -> NoDup axes ->
    length axes < length (x_shape x) <= 26 ->
    documented (KNorm x (Z.of_nat (2 * m)) (NormAxes zs)) (axis_norm_nonzero (x_shape x) axes) (axis_norm_meaning m axes)
| inner_of_vectors x y n axes : other x y -> x_shape x = [n] -> x_shape y = [n] ->
    documented (KInner x y axes) everywhere (vector_inner_meaning n)
| inner_of_tensors x y z0 z1 a0 a1 : other x y -> not_both_vectors (x_shape x) (x_shape y) ->
    paired (x_shape x) (x_shape y) z0 z1 a0 a1 -> Forall (fun z => 0 <= z)%Z z0 -> Forall (fun z => 0 <= z)%Z z1 ->
    documented (KInner x y (Some (z0, z1))) everywhere (inner_meaning a0 a1)
| dot_of_vectors x y n axis : other x y -> x_shape x = [n] -> x_shape y = [n] ->
    documented (KDot x y axis) everywhere (vector_inner_meaning n)
| dot_of_tensors x y s z a : other x y -> x_shape x = s -> x_shape y = s ->
    2 <= length s -> axis_named (length s) z a -> nth a s 0 = 3 ->
    documented (KDot x y (Some z)) everywhere (dot_meaning a)
| outer_product x y : other x y -> length (x_shape x) + length (x_shape y) <= 26 ->
    documented (KOuter x y) everywhere outer_meaning
| matrix_vector x y m n : other x y -> x_shape x = [m; n] -> x_shape y = [n] ->
    documented (KMatvec x y) everywhere (matvec_meaning m n)
| matrix_matrix x y m n p : other x y -> x_shape x = [m; n] -> x_shape y = [n; p] -> p <> 1 ->
    documented (KMatmat x y) everywhere (matmat_meaning m n p)
| cross_product x y s axis : other x y -> x_shape x = s -> x_shape y = s ->
    nth_error s axis = Some 3 -> length s <= 11 ->
    documented (KCross x y axis) everywhere (cross_meaning axis)
| rotation x k : k < 3 -> documented (KRot x (120 + k)) everywhere (rotmat_meaning k)
| reshaped x s : size (x_shape x) = size s -> documented (KReshape x s) everywhere reshape_meaning
| transposed x : documented (KTranspose x) everywhere transpose_meaning
| reordered x op ins outs : spells op ins outs -> letters ins -> NoDup ins -> length ins = length (x_shape x) ->
    Permutation ins outs -> documented (KReorder x op) everywhere (letters_meaning ins outs)
| expanded_scalar x s : x_shape x = [1] -> documented (KExpand x s None) everywhere fill_meaning
| expanded_array x s ins outs : letters ins -> letters outs -> x_shape x <> [1] -> length s <= 10 ->
    length outs = length s -> NoDup outs -> filter (fun l => mem l ins) outs = ins ->
    shape_at s (map (find_pos outs) ins) = x_shape x ->
    documented (KExpand x s (Some (ins ++ [45; 62] ++ outs))) everywhere (expand_meaning ins outs)
| einsum_dense op subs out ext xs : proper op subs out -> fit ext subs xs -> NoDup (map x_name xs) ->
    documented (KEinsum false op xs) everywhere (einsum_meaning subs out ext (map x_name xs) (map x_name xs))
| einsum_dense_repeated op subs out ext ds rs : proper op subs out -> fit ext subs (ds ++ rs) ->
    NoDup (map x_name ds) -> incl rs ds ->
    documented (KEinsum false op (ds ++ rs)) everywhere
               (einsum_meaning subs out ext (map x_name ds) (map x_name (ds ++ rs)))
| einsum_sparse op subs out ext xs : proper op subs out -> fit ext subs xs -> NoDup (map x_name xs) ->
    (forall l, In l (concat subs) -> 0 < ext l) ->
    (forall q q', q < q' -> q' < length subs ->
       (exists l, In l (nth q' subs []) /\ In l out) -> exists l, In l (nth q subs []) /\ In l out) ->
    documented (KEinsum true op xs) everywhere (einsum_meaning subs out ext (map x_name xs) (map x_name xs))
| einsum_sparse_repeated op subs out ext ds rs : proper op subs out -> fit ext subs (ds ++ rs) ->
    NoDup (map x_name ds) -> incl rs ds ->
    (forall l, In l (concat subs) -> 0 < ext l) ->
    (forall q q', q < q' -> q' < length ds ->
       keeps subs out (map x_name (ds ++ rs)) (nth q' (map x_name ds) 0) ->
       keeps subs out (map x_name (ds ++ rs)) (nth q (map x_name ds) 0)) ->
    documented (KEinsum true op (ds ++ rs)) everywhere
               (einsum_meaning subs out ext (map x_name ds) (map x_name (ds ++ rs)))
| einsum_tuples ins out ext xs (scalar : bool) : ins <> [] -> NoDup (map x_name xs) ->
    NoDup out -> incl out (concat ins) -> (scalar = true -> out = []) ->
    (forall t, In t ins -> length t + length (dedup (concat ins)) <= 26) -> fit ext ins xs ->
    documented (KEinsumNew false (if scalar then ins else ins ++ [out]) xs) everywhere
               (einsum_meaning ins out ext (map x_name xs) (map x_name xs)).
