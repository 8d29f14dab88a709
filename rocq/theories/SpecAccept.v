(** What C110 is about: the operands with which a call returns an expression. *)
From Coq Require Import Reals Arith List ZArith Bool.
From Verif Require Import NdArray SpecReduce CompElem CompNorm CompEinsum CompCond StdCalls SpecBuild.
Import ListNotations.
Local Open Scope nat_scope.

(** every entry names an axis of an array of rank [r] *)
Definition all_named (r : nat) (zs : list Z) : Prop := forall z, In z zs -> exists a, axis_named r z a.

(** ---- index strings ---- *)
Definition arrow : list nat := [45; 62].
Definition no_arrow (l : list nat) : Prop := forall a b, l <> a ++ arrow ++ b.
(** "->" stands once, or more often *)
Definition one_arrow (str ins outs : list nat) : Prop :=
  str = ins ++ arrow ++ outs /\ no_arrow ins /\ no_arrow outs.
Definition up_to_arrow (str part : list nat) : Prop :=
  no_arrow part /\ (str = part \/ exists rest, str = part ++ arrow ++ rest).

(** [c] stands in [l] first at position [j] *)
Definition first_at (l : list nat) (c j : nat) : Prop :=
  nth_error l j = Some c /\ forall i, i < j -> nth_error l i <> Some c.

(** the extents of the axes whose letter is one of the input's, or which have none *)
Fixpoint kept (ins outs s : list nat) : list nat :=
  match s, outs with
  | [], _ => []
  | n :: s', [] => n :: kept ins [] s'
  | n :: s', c :: outs' => if in_dec Nat.eq_dec c ins then n :: kept ins outs' s' else kept ins outs' s'
  end.

(** the first operand that has the subscript [c] exists and has such an axis, unless
    no operand has the subscript *)
Definition extent_found (subs : list (list nat)) (shapes : list (list nat)) (c : nat) : Prop :=
  forall pre r post j, subs = pre ++ r :: post -> (forall p, In p pre -> ~ In c p) -> first_at r c j ->
    exists s, nth_error shapes (length pre) = Some s /\ j < length s.

(** the tuple form: one tuple more than operands, the last one for the output *)
Definition input_tuples (tuples : list (list nat)) (operands : nat) : list (list nat) :=
  if Nat.eqb operands (length tuples) then tuples else removelast tuples.
Definition output_tuple (tuples : list (list nat)) (operands : nat) : list nat :=
  if Nat.eqb operands (length tuples) then [] else last tuples [].

Definition accepts (k : std_call) : Prop :=
  match k with
  | KElem _ _ | KNeg _ | KOuter _ _ | KRot _ _ | KReshape _ _ | KTranspose _ => True
  | KBinop op a b =>
      match a, b with
      | OVar _ s, OVar _ t => op = Pow \/ s = t
      | OVar _ _, ONum c => op = Div -> c <> 0%R
      | OVar _ s, OArr c => (op = Div -> size (shp c) = 1 /\ dat c 0 <> 0%R) /\ (op = Pow -> s = shp c)
      | OVar _ _, OOther => True
      | ONum _, OVar _ _ => op <> Pow
      | _, _ => False
      end
  | KSum xs axes | KAverage xs axes =>
      xs <> [] /\ match axes with None => True | Some zs => all_named (length (x_shape (last_of xs))) zs end
  | KExtremum _ xs (Some z) _ => exists x a, xs = [x] /\ axis_named (length (x_shape x)) z a
  | KExtremum _ xs None _ => xs <> [] /\ forall x y, In x xs -> In y xs -> x_shape x = x_shape y
  | KNorm x p axis =>
      (0 < p)%Z /\ Z.Even p /\
      match axis with
      | NormAxes zs => all_named (length (x_shape x)) zs
      | NormAxisOther => False
      | _ => True
      end
  | KInner x y axes =>
      (length (x_shape x) = 1 /\ length (x_shape y) = 1) \/
      exists zs zs', axes = Some (zs, zs') /\ all_named (length (x_shape x)) zs /\ all_named (length (x_shape y)) zs'
  | KDot x y axis =>
      x_shape x = x_shape y /\
      (length (x_shape x) = 1 \/
       exists z a, axis = Some z /\ axis_named (length (x_shape x)) z a /\ nth_error (x_shape x) a = Some 3)
  | KMatvec x y => exists m n, x_shape x = [m; n] /\ x_shape y = [n]
  | KMatmat x y => exists m n, x_shape x = [m; n] /\ (x_shape y = [n] \/ exists p, x_shape y = [n; p])
  | KCross x y axis => x_shape x = x_shape y /\ nth_error (x_shape x) axis = Some 3
  | KReorder x op =>
      exists ins rest outs, filter (fun c => negb (Nat.eqb c 32)) op = ins ++ arrow ++ rest /\ no_arrow ins /\
        up_to_arrow rest outs /\
        forall c, In c outs -> exists j, first_at ins c j /\ j < length (x_shape x)
  | KExpand x s None => x_shape x = [1]
  | KExpand x s (Some str) =>
      exists ins outs, one_arrow str ins outs /\
        (x_shape x = [1] \/ length s <= 10 /\ kept ins outs s = x_shape x)
  | KEinsum _ op xs =>
      forall subs out, np_subscripts op = Some (subs, out) ->
        forall c, In c out -> extent_found subs (map x_shape xs) c
  | KEinsumNew _ tuples xs =>
      let ins := input_tuples tuples (length xs) in
      let out := output_tuple tuples (length xs) in
      (forall names, NoDup names -> incl names (concat ins) -> length names <= 26) /\
      incl out (concat ins) /\ forall c, In c out -> extent_found ins (map x_shape xs) c
  | KIfElse c t f => x_shape t = x_shape f
  end.

(** the calls covered: einsum strings in NumPy's explicit form, products by matrices
    (not by arrays of more axes, which matvec and matmat let pass) *)
Definition in_scope (k : std_call) : Prop :=
  match k with
  | KEinsum _ op _ => exists subs out, np_subscripts op = Some (subs, out)
  | KMatvec x _ | KMatmat x _ => length (x_shape x) <= 2
  | _ => True
  end.
