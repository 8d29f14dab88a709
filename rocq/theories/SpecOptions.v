(** What a declaration of an option promises (independent of assert_valid). *)
From Coq Require Import String QArith.
From Verif Require Import PyBase Options.

Section Spec.
Variable supers : nat -> list nat.

(** [v] is a number, True and False included *)
Inductive amount : pyval -> fl -> Prop :=
| amount_true : amount (VBool true) (Fin 1)
| amount_false : amount (VBool false) (Fin 0)
| amount_int : forall z, amount (VInt z) (Fin (inject_Z z))
| amount_float : forall f, amount (VFloat f) f.

(** NaN is neither equal to, nor less, nor greater than anything. *)
Definition fl_same (a b : fl) : Prop :=
  match a, b with
  | Fin x, Fin y => (x == y)%Q
  | PInf, PInf | NInf, NInf => True
  | _, _ => False
  end.
Definition fl_less (a b : fl) : Prop :=
  match a, b with
  | Fin x, Fin y => (x < y)%Q
  | NInf, (Fin _ | PInf) | Fin _, PInf => True
  | _, _ => False
  end.

Inductive same_value : pyval -> pyval -> Prop :=
| same_numbers : forall v w x y, amount v x -> amount w y -> fl_same x y -> same_value v w
| same_none : same_value VNone VNone
| same_strings : forall s, same_value (VStr s) (VStr s)
| same_objects : forall i c h c' h', same_value (VObj i c h) (VObj i c' h').

(** isinstance(v, t); True and False are ints *)
Inductive of_class : pyval -> pytype -> Prop :=
| class_object : forall v, of_class v TObject
| class_none : of_class VNone TNoneType
| class_bool : forall b, of_class (VBool b) TBool
| class_int : forall z, of_class (VInt z) TInt
| class_bool_int : forall b, of_class (VBool b) TInt
| class_float : forall f, of_class (VFloat f) TFloat
| class_str : forall s, of_class (VStr s) TStr
| class_user : forall i c d h, In c (supers d) -> of_class (VObj i d h) (TObj c).

Definition listed (v : pyval) (va : values_arg) : Prop :=
  exists l, (va = ValuesSeq l \/ va = ValuesSet l /\ (forall i c, v <> VObj i c false)) /\
    exists w, In w l /\ same_value v w.
Definition typed (v : pyval) (ta : types_arg) : Prop :=
  exists l, (ta = TypesTuple l \/ exists t, ta = TypesOne t /\ l = [t]) /\ exists t, In t l /\ of_class v t.
(** The two can be compared and [v] is not less than [l]. *)
Definition at_least (v l : pyval) : Prop :=
  (exists x y, amount v x /\ amount l y /\ ~ fl_less x y) \/
  (exists s t, v = VStr s /\ l = VStr t /\ String.compare s t <> Lt).
Definition at_most (v u : pyval) : Prop := at_least u v.

Definition satisfies (d : decl) (v : pyval) : Prop :=
  ((v = VNone /\ d_allow_none d = true)
   \/ ((forall va, d_values d = Some va -> listed v va)
       /\ (d_values d = None -> forall ta, d_types d = Some ta -> typed v ta)
       /\ (forall u, d_upper d = Some u -> at_most v u)
       /\ (forall l, d_lower d = Some l -> at_least v l)))
  /\ (forall f, d_check d = Some f -> f v = None).

(** The declaration of [name] in force after the calls [h]. *)
Fixpoint in_force (h : list oop) (name : nat) (now : option decl) : option decl :=
  match h with
  | [] => now
  | ODeclare n d :: r => in_force r name (if Nat.eqb n name then Some d else now)
  | OUndeclare n :: r => in_force r name (if Nat.eqb n name then None else now)
  | _ :: r => in_force r name now
  end.

Definition declarations_ok (h : list oop) (rs : list (res unit)) : Prop :=
  forall i n d, nth_error h i = Some (ODeclare n d) -> nth_error rs i = Some (Ok tt).

(** Well-formed arguments of declare (L281-290). *)
Definition wellformed (d : decl) : Prop :=
  d_values d <> Some ValuesOther /\ d_types d <> Some TypesOther /\ (d_values d = None \/ d_types d = None).
End Spec.
