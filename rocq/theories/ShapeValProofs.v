(** Shapes and values. *)
From Coq Require Import Reals Lra Lia Arith List Bool.
From Verif Require Import PyBase RSum NdArray ShapeVal SpecShapeVal.
Import ListNotations.

Lemma is_tuple_spec : forall s t, is_tuple (ShTuple s) t = true <-> s = t.
Proof. intros s t. cbn. destruct (list_eq_dec Nat.eq_dec s t); split; congruence. Qed.

Lemma shape_val_agree : forall s v,
  (fits s v <-> get_shape_val (ShTuple s) v <> None) /\
  forall s' a, get_shape_val (ShTuple s) v = Some (s', a) -> s' = ShTuple (shp a) /\ stands_for v s a.
Proof.
  intros s v.
  assert (A : forall b : nd R, ((s = [1] \/ s = shp b) <-> (if is_tuple (ShTuple s) [1] then Some (ShTuple (shp b), b)
      else if is_tuple (ShTuple s) (shp b) then Some (ShTuple s, b) else None) <> None) /\
      forall s' a, (if is_tuple (ShTuple s) [1] then Some (ShTuple (shp b), b)
      else if is_tuple (ShTuple s) (shp b) then Some (ShTuple s, b) else None) = Some (s', a) ->
      s' = ShTuple (shp a) /\ a = b).
  { intros b. destruct (is_tuple (ShTuple s) [1]) eqn:E1.
    - apply is_tuple_spec in E1. split; [split; [discriminate|intros _; now left]|].
      intros s' a H. injection H as <- <-. auto.
    - destruct (is_tuple (ShTuple s) (shp b)) eqn:E2.
      + apply is_tuple_spec in E2. split; [split; [discriminate|intros _; now right]|].
        intros s' a H. injection H as <- <-. subst s. auto.
      + split; [|discriminate]. split; [|congruence]. intros [E|E]; apply is_tuple_spec in E; congruence. }
  destruct v as [c|b|b|]; cbn [fits get_shape_val stands_for].
  - split; [split; [discriminate|auto]|]. intros s' a H. injection H as <- <-. cbn. splits; auto. intros k. lra.
  - apply A.
  - apply A.
  - split; [|discriminate]. split; [intros []|intros H; now elim H].
Qed.

(** an int as shape: kept as it is, not as the shape of the value *)
Lemma shape_int_kept : forall n c, exists a, get_shape_val (ShInt n) (VNum c) = Some (ShInt n, a) /\ ShInt n <> ShTuple (shp a).
Proof. intros n c. eexists. split; [reflexivity|discriminate]. Qed.

(** no other shape argument is ever equal to the shape of an array *)
Lemma shape_not_tuple : forall s v, (forall t, s <> ShTuple t) ->
  (get_shape_val s v <> None <-> exists c, v = VNum c) /\
  forall s' a, get_shape_val s v = Some (s', a) -> s' = s /\ s' <> ShTuple (shp a) /\
    (s = ShInt (size (shp a)) /\ length (shp a) = 1 \/ s = ShList (shp a)) /\ stands_for v (shp a) a.
Proof.
  intros s v H. destruct s as [t|n|t]; [now elim (H t)| |]; clear H;
    (destruct v as [c|b|b|]; cbn [get_shape_val is_tuple];
     [split; [split; [now exists c|discriminate]|intros s' a E; injection E as <- <-; cbn]
     |split; [split; [congruence|intros (c & E); discriminate]|discriminate]
     |split; [split; [congruence|intros (c & E); discriminate]|discriminate]
     |split; [split; [congruence|intros (c & E); discriminate]|discriminate]]).
  - splits; [reflexivity|discriminate| |reflexivity|intros k; lra]. left. split; [|reflexivity]. f_equal. lia.
  - splits; [reflexivity|discriminate| |reflexivity|intros k; lra]. right. reflexivity.
Qed.

Example shape_val_case :
  fits [2; 3] (VNum 5) /\ fits [1] (VArray (Nd [4; 2] (fun _ => 0%R))) /\ ~ fits [2; 3] (VArray (Nd [3; 2] (fun _ => 0%R))).
Proof. cbn. splits; auto. intros [H|H]; discriminate. Qed.
