(** C113: sums and products with constant arrays of another shape. *)
From Coq Require Import Reals Lra Lia Arith List Bool ZArith.
From Verif Require Import PyBase RSum NdArray Component JacSpec JacOpen SpecElem CompElem ElemProofs ArithProofs ArithRefute StdCalls
  SpecBroadcast BroadcastProofs SpecCompute ComputeProofs.
Import ListNotations.
Local Open Scope nat_scope.

Lemma entry_at s (z : nd R) o : shp z = s -> o < size s -> get z (unravel s o) = dat z o.
Proof. intros Hs Ho. unfold get. now rewrite Hs, ravel_unravel. Qed.

(** the array after the assignment, entry by entry *)
Lemma assigned s a (P : list nat -> list nat -> Prop) : size (shp a) = size s /\ P = (fun i j => ravel (shp a) j = ravel s i) \/
    stretches (shp a) s /\ P = meets (shp a) ->
  exists kf, assign_output s a = Some (Nd s kf) /\
    forall o, o < size s -> exists j, inb (shp a) j /\ P (unravel s o) j /\ kf o = get a j.
Proof.
  intros [[E ->]|[E ->]].
  - exists (dat a). split.
    + unfold assign_output. now rewrite E, Nat.eqb_refl.
    + intros o Ho. exists (unravel (shp a) o). rewrite <- E in Ho. splits.
      * now apply unravel_inb.
      * rewrite !ravel_unravel; lia.
      * unfold get. now rewrite ravel_unravel.
  - destruct (assign_entries s a E) as ([sz d] & Ha & Hs & He). cbn [shp] in Hs. subst sz. exists d. split; [exact Ha|].
    intros o Ho. pose proof (unravel_inb s o Ho) as Hi. destruct (meets_exists _ _ _ E Hi) as (j & Hm & Hj).
    exists j. splits; auto. rewrite <- (He _ _ Hi Hm). symmetry. exact (entry_at s (Nd s d) o eq_refl Ho).
Qed.

Lemma added op n s a P : op = Add \/ op = Sub ->
  size (shp a) = size s /\ P = (fun i j => ravel (shp a) j = ravel s i) \/ stretches (shp a) s /\ P = meets (shp a) ->
  exists c, py_binop op (OVar n s) (OArr a) = Expr s (Some (Some c)) /\ c_ins c = [s] /\ c_out c = s /\
    correct c (entries1 (fun i x y => exists j, inb (shp a) j /\ P i j /\ op_rel op x (get a j) y)).
Proof.
  intros Hop HP. destruct Hop; subst op; cbn [py_binop elementwise addition subtraction].
  - destruct (assigned s a P HP) as (kf & Ha & Hk).
    destruct (linear1_correct s n 1 a kf (entries1 (fun i x y => exists j, inb (shp a) j /\ P i j /\ op_rel Add x (get a j) y)) Ha)
      as (c & -> & H).
    + intros v y Hy Hd. apply entries1_intro; [exact Hy|]. intros o Ho. destruct (Hk o Ho) as (j & H1 & H2 & H3).
      exists j. splits; auto. cbn [op_rel]. rewrite Hd, H3 by assumption. lra.
    + now exists c.
  - destruct (assigned s (np_map Ropp a) P HP) as (kf & Ha & Hk).
    destruct (linear1_correct s n 1 (np_map Ropp a) kf
                (entries1 (fun i x y => exists j, inb (shp a) j /\ P i j /\ op_rel Sub x (get a j) y)) Ha) as (c & -> & H).
    + intros v y Hy Hd. apply entries1_intro; [exact Hy|]. intros o Ho. destruct (Hk o Ho) as (j & H1 & H2 & H3).
      exists j. splits; auto. cbn [op_rel]. rewrite Hd, H3 by assumption. unfold get. cbn [np_map shp dat]. lra.
    + now exists c.
Qed.

Theorem added_broadcast op n s a : op = Add \/ op = Sub -> stretches (shp a) s ->
  exists c, py_binop op (OVar n s) (OArr a) = Expr s (Some (Some c)) /\ c_ins c = [s] /\ c_out c = s /\
    correct c (entries1 (fun i x y => exists j, inb (shp a) j /\ meets (shp a) i j /\ op_rel op x (get a j) y)).
Proof. intros Hop H. apply (added op n s a (meets (shp a)) Hop). now right. Qed.

Theorem added_reshaped op n s a : op = Add \/ op = Sub -> size (shp a) = size s ->
  exists c, py_binop op (OVar n s) (OArr a) = Expr s (Some (Some c)) /\ c_ins c = [s] /\ c_out c = s /\
    correct c (entries1 (fun i x y => exists j, inb (shp a) j /\ ravel (shp a) j = ravel s i /\ op_rel op x (get a j) y)).
Proof. intros Hop H. apply (added op n s a (fun i j => ravel (shp a) j = ravel s i) Hop). now left. Qed.

Theorem product_broadcast n s a : stretches (shp a) s ->
  exists c, py_binop Mul (OVar n s) (OArr a) = Expr s (Some (Some c)) /\ c_ins c = [s] /\ c_out c = s /\
    (forall v, exists y, c_compute c (inputs_of (c_ins c) v) = Some y /\
       entries1 (fun i x y => exists j, inb (shp a) j /\ meets (shp a) i j /\ op_rel Mul x (get a j) y) [Nd s (v 0)] y) /\
    (size (shp a) < size s -> forall v, c_partials c (inputs_of (c_ins c) v) 0 = None).
Proof.
  intros Hst. destruct (assigned s a (meets (shp a)) (or_intror (conj Hst eq_refl))) as (kf & Ha & Hk).
  cbn [py_binop elementwise multiplication]. eexists. split; [reflexivity|]. cbn [c_ins c_out].
  split; [reflexivity|]. split; [reflexivity|]. split.
  - intros v. cbn [c_compute]. rewrite inputs1. unfold power_compute. cbn [coeff_nd]. rewrite Ha.
    destruct (power_loop_spec s _ (Nd s kf) eq_refl (one_dom s (v 0))) as (y & -> & Hs & Hd).
    exists y. split; [reflexivity|]. apply entries1_intro; [exact Hs|]. intros o Ho.
    destruct (Hk o Ho) as (j & H1 & H2 & H3). exists j. splits; auto. cbn [op_rel].
    rewrite Hd by assumption. cbn [combine pprod dat]. rewrite np_pow_1, <- H3. ring.
  - intros Hlt v. assert (St : std (KBinop Mul (OVar n s) (OArr a)) =
      Some (s, Some (Comp (repeat s 1) s (power_compute s [EInt 1] (CArr a)) (power_partials s [EInt 1] (CArr a))))) by reflexivity.
    assert (Df : differentiated (KBinop Mul (OVar n s) (OArr a))) by (cbn [differentiated]; right; right; right; lia).
    pose proof (which_differentiate _ _ _ v Df St) as W. cbn [slopes_exist] in W.
    cbn [length c_partials]. destruct (power_partials _ _ _ _ 0) as [j|] eqn:E; [|reflexivity]. exfalso.
    assert (D : padded s (shp a)).
    { apply W. intros p Hp. cbn in Hp. replace p with 0 by lia. exists j. exact E. }
    destruct D as [k D]. rewrite D, size_app, size_ones in Hlt. lia.
Qed.

(** Concrete cases: a row, a column and a vector against a 2x3 matrix; which entry of
    the row meets entry (1,2); and a matrix added to a vector of as many entries. *)
Example broadcast_cases :
  stretches [3] [2; 3] /\ stretches [1; 3] [2; 3] /\ stretches [2; 1] [2; 3] /\ stretches [1; 1; 3] [2; 3] /\
  ~ stretches [2] [2; 3] /\ ~ stretches [2; 2; 3] [2; 3] /\ ~ stretches [3; 2] [6] /\ size [3; 2] = size [6] /\
  meets [3] [1; 2] [2] /\ meets [2; 1] [1; 2] [1; 0] /\ ~ meets [3] [1; 2] [1] /\ size [3] < size [2; 3].
Proof.
  assert (Y : forall t s, (exists r, bcast t s = Some r /\ r = repeat 1 (length r - length s) ++ s) -> stretches t s)
    by (intros; now apply bcast_fits).
  splits; try (apply Y; eexists; split; vm_compute; reflexivity); try (cbn; lia).
  - intros H. destruct (H 0 2 eq_refl) as [E|E]; discriminate.
  - intros H. destruct (H 2 2 eq_refl) as [E|E]; discriminate.
  - intros H. destruct (H 0 2 eq_refl) as [E|E]; discriminate.
  - split; [reflexivity|]. intros [|n] b E; [|destruct n; discriminate]. injection E as <-. now right.
  - split; [reflexivity|]. intros [|[|n]] b E; [| |destruct n; discriminate]; injection E as <-; [now left|now right].
  - intros [_ H]. destruct (H 0 3 eq_refl) as [[E _]|[_ E]]; discriminate.
Qed.
