(** What C112 is about: the operands for which a component that was built delivers
    its value and its partials. *)
From Coq Require Import Reals Arith List ZArith Bool.
From Verif Require Import PyBase NdArray Component SpecReduce SpecNorm CompElem CompNorm CompEinsum CompCond StdCalls SpecBuild SpecAccept SpecBroadcast SpecEinsum.
Import ListNotations.
Local Open Scope nat_scope.

(** compute, and compute_partials for every input, end with a result when the
    entries of the inputs are [v] *)
Definition delivers (c : component) (v : nat -> nat -> R) : Prop :=
  exists y, c_compute c (inputs_of (c_ins c) v) = Some y.
Definition differentiates (c : component) (v : nat -> nat -> R) : Prop :=
  forall p, p < length (c_ins c) -> exists j, c_partials c (inputs_of (c_ins c) v) p = Some j.

Definition negative (x : R) : Prop := (x < 0)%R.
Definition whole (c : R) : Prop := exists z, c = IZR z.

(** x ** c and c * x ** (c - 1) are numbers *)
Definition power_exists (c x : R) : Prop :=
  (whole c /\ (c < 0 -> x <> 0) \/ ~ whole c /\ (0 < x \/ x = 0 /\ 0 < c))%R.
Definition slope_exists (c x : R) : Prop :=
  (whole c /\ (c < 1 -> x <> 0) \/ ~ whole c /\ (0 < x \/ x = 0 /\ 1 < c))%R.

(** no axis is named twice *)
Definition once (r : nat) (zs : list Z) : Prop :=
  exists axes, Forall2 (axis_named r) zs axes /\ NoDup axes.

(** the paired axes have the same extents *)
Definition paired_extents (s s' : list nat) (zs zs' : list Z) : Prop :=
  exists axes axes', Forall2 (axis_named (length s)) zs axes /\ Forall2 (axis_named (length s')) zs' axes' /\
    Forall2 (fun a b => nth_error s a = nth_error s' b) axes axes'.

Definition all_of (s : list nat) (P : R -> Prop) (x : nat -> R) : Prop := forall i, i < size s -> P (x i).

(** a constant array has as many entries as an array of shape [s], or broadcasts *)
Definition fills (a : nd R) (s : list nat) : Prop := size (shp a) = size s \/ stretches (shp a) s.

(** the shape [s] with axes of extent one put in front *)
Definition padded (s t : list nat) : Prop := exists k, t = repeat 1 k ++ s.

(** the axes with the same subscript have the same extent; the output has subscripts
    of the operands, each once *)
Definition subscripts_fit (subs : list (list nat)) (out : list nat) (shapes : list (list nat)) : Prop :=
  (exists ext : nat -> nat, shapes = map (map ext) subs) /\ NoDup out /\ incl out (concat subs).

Definition value_exists (k : std_call) (v : nat -> nat -> R) : Prop :=
  match k with
  | KBinop op (OVar _ s) (OArr a) =>
      match op with
      | Pow => all_of s (power_exists (dat a 0)) (v 0)
      | _ => fills a s
      end
  | KBinop Div (ONum _) (OVar _ s) => all_of s (fun x => x <> 0%R) (v 0)
  | KBinop Div (OVar _ s) (OVar _ _) => all_of s (fun x => x <> 0%R) (v 1)
  | KBinop Pow (OVar _ s) (ONum c) => all_of s (power_exists c) (v 0)
  | KSum xs (Some zs) => once (length (x_shape (last_of xs))) zs
  | KExtremum _ [x] (Some z) _ =>
      forall a, axis_named (length (x_shape x)) z a -> nth_error (x_shape x) a <> Some 0
  | KExtremum _ [x] None _ => size (x_shape x) <> 0
  | KNorm x _ (NormAxes zs) => once (length (x_shape x)) zs
  | KInner x y (Some (zs, zs')) =>
      (length (x_shape x) = 1 /\ length (x_shape y) = 1) \/
      once (length (x_shape x)) zs /\ once (length (x_shape y)) zs' /\
      paired_extents (x_shape x) (x_shape y) zs zs'
  | KOuter x y => length (x_shape x) + length (x_shape y) <= 26
  | KRot _ axis => axis = 120 \/ axis = 121 \/ axis = 122
  | KReshape x s => size (x_shape x) = size s
  | KIfElse c t f =>
      size (x_val c) = 1 /\
      (negative (v 0 0) -> size (x_val f) = 1) /\ (~ negative (v 0 0) -> size (x_val t) = 1)
  | KEinsum _ op xs =>
      forall subs out, np_subscripts op = Some (subs, out) -> subscripts_fit subs out (map x_shape xs)
  | KEinsumNew _ tuples xs =>
      subscripts_fit (input_tuples tuples (length xs)) (output_tuple tuples (length xs)) (map x_shape xs)
  | _ => True
  end.

(** the orders of the operands that C50 and C51 ask for *)
Definition ordered (sparse : bool) (subs : list (list nat)) (out names : list nat) : Prop :=
  if sparse then kept_first subs out names else repetitions_last names.

Definition slopes_exist (k : std_call) (v : nat -> nat -> R) : Prop :=
  match k with
  | KElem e x => e = Sech \/ e = Arcsin -> length (x_shape x) <= 1
  | KBinop op (OVar _ s) (OArr a) =>
      match op with
      | Pow => all_of s (slope_exists (dat a 0)) (v 0)
      | Mul | Div => padded s (shp a)
      | _ => True
      end
  | KBinop Div (ONum _) (OVar _ s) => all_of s (fun x => x <> 0%R) (v 0)
  | KBinop Div (OVar _ s) (OVar _ _) => all_of s (fun x => x <> 0%R) (v 1)
  | KBinop Pow (OVar _ s) (ONum c) => all_of s (slope_exists c) (v 0)
  | KExtremum _ [x] (Some z) _ =>
      forall a, axis_named (length (x_shape x)) z a -> nth_error (x_shape x) a <> Some 0
  | KExtremum _ [x] None _ => size (x_shape x) <> 0
  | KNorm x _ NormAll => norm_nonzero (x_shape x) v
  | KNorm x _ (NormAxes zs) =>
      exists axes, Forall2 (axis_named (length (x_shape x))) zs axes /\ NoDup axes /\
        axis_norm_nonzero (x_shape x) axes v
  | KInner x y (Some (zs, zs')) =>
      (length (x_shape x) = 1 /\ length (x_shape y) = 1) \/
      once (length (x_shape x)) zs /\ once (length (x_shape y)) zs' /\
      paired_extents (x_shape x) (x_shape y) zs zs'
  | KRot _ axis => axis = 120 \/ axis = 121 \/ axis = 122
  | KIfElse c t f =>
      let n := size (x_shape t) in
      size (x_val c) = 1 /\
      (negative (v 0 0) -> x_val f = [n] \/ x_val f = []) /\
      (~ negative (v 0 0) -> x_val t = [n] \/ x_val t = [])
  | KEinsum sparse op xs =>
      forall subs out, np_subscripts op = Some (subs, out) ->
        subscripts_fit subs out (map x_shape xs) /\ ordered sparse subs out (map x_name xs)
  | KEinsumNew sparse tuples xs =>
      let ins := input_tuples tuples (length xs) in
      let out := output_tuple tuples (length xs) in
      subscripts_fit ins out (map x_shape xs) /\ ordered sparse ins out (map x_name xs)
  | _ => True
  end.

(** expressions of the same name are the same *)
Definition same_named (xs : list expr_facts) : Prop :=
  forall x y, In x xs -> In y xs -> x_name x = x_name y -> x_shape x = x_shape y.
(** no axis that np.einsum would stretch *)
Definition no_unit_axes (xs : list expr_facts) : Prop := forall x, In x xs -> ~ In 1 (x_shape x).

Definition no_empty_axes (xs : list expr_facts) : Prop := forall x, In x xs -> ~ In 0 (x_shape x).
(** [n] lower-case letters do not stand in [op] *)
Definition spare (op : list nat) (n : nat) : Prop :=
  exists l, NoDup l /\ length l = n /\ forall c, In c l -> 97 <= c <= 122 /\ ~ In c op.

(** The calls covered.  einsum: of arrays without axes of extent one, strings in NumPy's explicit form.
    For the partials: constant factors of operands with entries, einsum with enough letters for the derivatives. *)
Definition evaluated (k : std_call) : Prop :=
  match k with
  | KEinsum _ op xs => same_named xs /\ no_unit_axes xs /\ exists subs out, np_subscripts op = Some (subs, out)
  | KEinsumNew _ tuples xs => same_named xs /\ no_unit_axes xs /\ xs <> [] /\ tuples <> []
  | _ => True
  end.
Definition differentiated (k : std_call) : Prop :=
  match k with
  | KEinsum sparse op xs =>
      same_named xs /\ no_unit_axes xs /\ xs <> [] /\ (sparse = true -> no_empty_axes xs) /\
      exists subs out, np_subscripts op = Some (subs, out) /\
        forall r, In r (subs ++ map x_shape xs) -> spare op (length r)
  | KEinsumNew sparse tuples xs =>
      let ins := input_tuples tuples (length xs) in
      same_named xs /\ no_unit_axes xs /\ xs <> [] /\ tuples <> [] /\ (sparse = true -> no_empty_axes xs) /\
      forall r axes, In r (ins ++ map x_shape xs) -> NoDup axes -> incl axes (concat ins) ->
        length r + length axes <= 26
  | KBinop op (OVar _ s) (OArr a) => op = Add \/ op = Sub \/ op = Pow \/ 0 < size s
  | _ => True
  end.
