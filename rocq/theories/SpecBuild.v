(** What C84 is about: the calls whose component can be built. *)
From Coq Require Import Arith List ZArith Bool.
From Verif Require Import NdArray SpecReduce SpecReorder CompElem CompNorm CompCond StdCalls.
Import ListNotations.
Local Open Scope nat_scope.

(** Some axis of an array of rank [r] is not among those named by [zs]. *)
Definition axis_remains (r : nat) (zs : list Z) : Prop :=
  exists i, i < r /\ forall z, In z zs -> ~ axis_named r z i.

(** The operand whose shape sum and average read. *)
Definition last_of (xs : list expr_facts) : expr_facts := last xs (Facts 0 [] []).

Definition is_var (a : operand) : Prop := exists n s, a = OVar n s.

Definition builds (k : std_call) : Prop :=
  match k with
  | KElem _ _ | KRot _ _ | KReshape _ _ | KTranspose _ | KExpand _ _ _ => True
  | KBinop Pow _ (ONum _) => True
  | KBinop Pow (OVar _ s) (OArr _) => length s = 1
  | KBinop Pow _ _ => False
  | KBinop _ (OVar n _) (OVar m _) => n <> m
  | KBinop _ a b => a <> OOther /\ b <> OOther
  | KNeg a => is_var a
  | KSum xs axes =>
      NoDup (map x_name xs) /\
      match axes with None => True | Some zs => axis_remains (length (x_shape (last_of xs))) zs end
  | KAverage xs axes =>
      NoDup (map x_name xs) /\
      match axes with
      | None => True
      | Some zs => length zs <= 1 /\ axis_remains (length (x_shape (last_of xs))) zs
      end
  | KExtremum _ xs (Some _) _ => forall x, In x xs -> length (x_shape x) <= 12
  | KExtremum _ xs None _ => NoDup (map x_name xs)
  | KNorm x _ (NormAxes zs) => length (x_shape x) <= 26 /\ axis_remains (length (x_shape x)) zs
  | KNorm _ _ _ => True
  | KInner x y _ | KDot x y _ | KOuter x y | KMatvec x y => x_name x <> x_name y
  | KMatmat x y =>
      x_name x <> x_name y /\ (length (x_shape y) = 1 -> size (x_val y) = size (x_shape y))
  | KCross x y _ => x_name x <> x_name y /\ length (x_shape x) <= 11
  | KReorder x op =>
      forall ins outs, letters ins -> letters outs -> spells op ins outs ->
        NoDup outs /\ length outs = length (x_shape x)
  | KEinsum _ _ _ | KEinsumNew _ _ _ => True
  | KIfElse c t f => NoDup (map x_name [c; t; f]) /\ size (x_shape t) <= 1
  end.

(** The calls covered: not the sparse format of einsum; index strings of
    reorder_axes made of letters around one arrow. *)
Definition covered (k : std_call) : Prop :=
  match k with
  | KEinsum sparse _ _ | KEinsumNew sparse _ _ => sparse = false
  | KReorder _ op => exists ins outs, letters ins /\ letters outs /\ spells op ins outs
  | _ => True
  end.

(** The calls that allow an operand twice. *)
Definition is_einsum (k : std_call) : Prop :=
  match k with KEinsum _ _ _ | KEinsumNew _ _ _ => True | _ => False end.
