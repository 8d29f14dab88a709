(** C26.  Specification: SpecShapeVal.v.  Concrete case: shape_val_case in ShapeValProofs.v. *)
From Coq Require Import Reals Arith List.
From Verif Require Import NdArray ShapeVal SpecShapeVal ShapeValProofs.
Import ListNotations.

Theorem C26_agree : forall s v,
  (fits s v <-> get_shape_val (ShTuple s) v <> None) /\
  forall s' a, get_shape_val (ShTuple s) v = Some (s', a) -> s' = ShTuple (shp a) /\ stands_for v s a.
Proof. exact shape_val_agree. Qed.
Print Assumptions C26_agree.

Theorem C26_int_shape : forall n c, exists a, get_shape_val (ShInt n) (VNum c) = Some (ShInt n, a) /\ ShInt n <> ShTuple (shp a).
Proof. exact shape_int_kept. Qed.
Print Assumptions C26_int_shape.

(** an int or a list as shape goes with a number only *)
Theorem C26_other_shapes : forall s v, (forall t, s <> ShTuple t) ->
  (get_shape_val s v <> None <-> exists c, v = VNum c) /\
  forall s' a, get_shape_val s v = Some (s', a) -> s' = s /\ s' <> ShTuple (shp a) /\
    (s = ShInt (size (shp a)) /\ length (shp a) = 1 \/ s = ShList (shp a)) /\ stands_for v (shp a) a.
Proof. exact shape_not_tuple. Qed.
Print Assumptions C26_other_shapes.
