(** if_else: the selected value; the derivatives. *)
From Coq Require Import Reals Lra Lia Arith List Bool ZArith.
From Verif Require Import PyBase RSum NdArray Component CompReorder CompElem CompCond JacSpec JacOpen
  SpecExtremum SpecNorm SpecCond KeptProofs.
Import ListNotations.
Local Open Scope R_scope.

Definition three (c t f : expr_facts) : Prop := NoDup [x_name c; x_name t; x_name f].

Lemma three_ok : forall c t f, three c t f -> names_ok [x_name c; x_name t; x_name f] = true.
Proof.
  intros c t f H. unfold three in H. inversion H as [|? ? H1 H2]; subst. inversion H2 as [|? ? H3 H4]; subst.
  cbn in *. destruct (Nat.eqb_spec (x_name c) (x_name t)); [exfalso; intuition congruence|].
  destruct (Nat.eqb_spec (x_name c) (x_name f)); [exfalso; intuition congruence|].
  destruct (Nat.eqb_spec (x_name t) (x_name f)); [exfalso; intuition congruence|]. reflexivity.
Qed.

Lemma truth_spec : forall s x, size s = 1%nat ->
  truth_neg (Nd s x) = Some (if Rlt_dec (x 0%nat) 0 then true else false).
Proof. intros s x H. unfold truth_neg. cbn [shp dat]. now rewrite H. Qed.

Theorem if_else_value : forall c t f, three c t f -> x_shape t = x_shape f ->
  size (x_shape t) = 1%nat -> size (x_val c) = 1%nat -> size (x_val t) = 1%nat -> size (x_val f) = 1%nat ->
  exists k, if_else c t f = Some ([1%nat], Some k) /\
    c_ins k = [x_val c; x_val t; x_val f] /\ c_out k = [1%nat] /\
    forall v, exists y, c_compute k (inputs_of (c_ins k) v) = Some y /\ shp y = [1%nat] /\
      forall p, chosen (v 0%nat 0%nat) p -> get y [0%nat] = v p 0%nat.
Proof.
  intros c t f H3 Hs Hn Hc Ht Hf. unfold if_else.
  destruct (list_eq_dec Nat.eq_dec (x_shape t) (x_shape f)); [|contradiction].
  unfold cond_comp. rewrite three_ok, Hn by assumption. cbn [Nat.leb andb].
  eexists. split; [reflexivity|]. split; [reflexivity|]. split; [reflexivity|].
  intros v. cbn [c_ins c_compute]. change (inputs_of [x_val c; x_val t; x_val f] v)
    with [Nd (x_val c) (v 0%nat); Nd (x_val t) (v 1%nat); Nd (x_val f) (v 2%nat)].
  cbn iota beta. rewrite truth_spec by assumption.
  destruct (Rlt_dec (v 0%nat 0%nat) 0) as [Hl|Hg]; unfold assign_output; cbn [shp dat].
  - rewrite Hf. cbn [size Nat.eqb Nat.mul]. eexists. split; [reflexivity|]. split; [reflexivity|].
    intros p [[_ ->]|[H _]]; [reflexivity|lra].
  - rewrite Ht. cbn [size Nat.eqb Nat.mul]. eexists. split; [reflexivity|]. split; [reflexivity|].
    intros p [[H _]|[_ ->]]; [contradiction|reflexivity].
Qed.

Theorem if_else_shapes : forall c t f, if_else c t f <> None <-> x_shape t = x_shape f.
Proof.
  intros c t f. unfold if_else. destruct (list_eq_dec Nat.eq_dec (x_shape t) (x_shape f)); split; congruence.
Qed.

(** branches with several entries, or one expression used twice: setup raises *)
Theorem if_else_arrays : forall c t f, x_shape t = x_shape f -> (2 <= size (x_shape t))%nat ->
  if_else c t f = Some ([1%nat], None).
Proof.
  intros c t f Hs Hn. unfold if_else. destruct (list_eq_dec Nat.eq_dec (x_shape t) (x_shape f)); [|contradiction].
  unfold cond_comp. replace (Nat.leb (size (x_shape t)) 1) with false by (symmetry; apply Nat.leb_gt; lia).
  now rewrite andb_false_r.
Qed.

Theorem if_else_repeated : forall c t f, x_shape t = x_shape f ->
  x_name c = x_name t \/ x_name c = x_name f \/ x_name t = x_name f ->
  if_else c t f = Some ([1%nat], None).
Proof.
  intros c t f Hs Hn. unfold if_else. destruct (list_eq_dec Nat.eq_dec (x_shape t) (x_shape f)); [|contradiction].
  unfold cond_comp. cbn [names_ok existsb].
  destruct Hn as [E|[E|E]]; rewrite E, Nat.eqb_refl; cbn [orb andb negb]; rewrite ?orb_true_r, ?andb_false_r; reflexivity.
Qed.

(** ---- derivatives ---- *)

Definition plain (x : expr_facts) : Prop := x_shape x = [1%nat] /\ x_val x = [1%nat].

Lemma plain_value : forall c t f k, three c t f -> plain c -> plain t -> plain f ->
  cond_comp c t f = Some k ->
  forall v o, value_of k v o = if Rlt_dec (v 0%nat 0%nat) 0 then v 2%nat o else v 1%nat o.
Proof.
  intros c t f k H3 [C1 C2] [T1 T2] [F1 F2] E v o. unfold cond_comp in E.
  rewrite three_ok, T1, T2, C2, F2 in E by assumption. injection E as <-.
  unfold value_of. cbn [c_ins c_compute].
  change (inputs_of [[1%nat]; [1%nat]; [1%nat]] v)
    with [Nd [1%nat] (v 0%nat); Nd [1%nat] (v 1%nat); Nd [1%nat] (v 2%nat)].
  cbn iota beta. rewrite truth_spec by reflexivity.
  destruct (Rlt_dec (v 0%nat 0%nat) 0); reflexivity.
Qed.

Lemma coo_one : forall a, coo_entry (Coo 1 (fun k => k) (fun k => k) (fun _ => a)) 0 0 = a.
Proof. intros a. unfold coo_entry. cbn. lra. Qed.

Lemma coo_one_ok : forall a, coo_pattern_ok 1 1 (Coo 1 (fun k => k) (fun k => k) a).
Proof. intros a. split; cbn; intros; lia. Qed.

Lemma set_op_other : forall v p q x, q <> p -> set_op v p x q = v q.
Proof. intros v p q x H. unfold set_op. apply Nat.eqb_neq in H. now rewrite H. Qed.

Theorem if_else_partials : forall c t f, three c t f -> plain c -> plain t -> plain f ->
  exists k, if_else c t f = Some ([1%nat], Some k) /\
  forall v, v 0%nat 0%nat <> 0 ->
    exists js : nat -> jac,
      (forall p, (p < 3)%nat -> c_partials k (inputs_of (c_ins k) v) p = Some (js p)) /\
      (forall p, (p < 3)%nat -> chosen (v 0%nat 0%nat) p ->
         jac_entry 1 (js p) 0 0 = v p 0%nat /\ (right_for k v p (js p) <-> v p 0%nat = 1)) /\
      (forall p, (p < 3)%nat -> ~ chosen (v 0%nat 0%nat) p -> right_for k v p (js p)).
Proof.
  intros c t f H3 Pc Pt Pf.
  assert (Ek : exists k, cond_comp c t f = Some k /\ c_ins k = [[1%nat]; [1%nat]; [1%nat]] /\ c_out k = [1%nat] /\
             c_partials k = fun ins p => cond_partials 1 ins p).
  { unfold cond_comp. destruct Pc as [C1 C2], Pt as [T1 T2], Pf as [F1 F2].
    rewrite three_ok, T1, T2, C2, F2 by assumption. eexists. split; [reflexivity|]. auto. }
  destruct Ek as (k & Ek & Hi & Ho & Hp).
  exists k. split.
  { unfold if_else. destruct Pt as [T1 _], Pf as [F1 _]. rewrite T1, F1, Ek.
    destruct (list_eq_dec Nat.eq_dec [1%nat] [1%nat]); congruence. }
  pose proof (plain_value c t f k H3 Pc Pt Pf Ek) as HV.
  intros v Hv. rewrite Hi, Hp.
  change (inputs_of [[1%nat]; [1%nat]; [1%nat]] v)
    with [Nd [1%nat] (v 0%nat); Nd [1%nat] (v 1%nat); Nd [1%nat] (v 2%nat)].
  set (neg := if Rlt_dec (v 0%nat 0%nat) 0 then true else false).
  exists (fun p => match p with
    | 0%nat => no_entries
    | 1%nat => Sparse (Coo 1 (fun k => k) (fun k => k) (if neg then fun _ => 0 else v 1%nat))
    | _ => Sparse (Coo 1 (fun k => k) (fun k => k) (if neg then v 2%nat else fun _ => 0))
    end).
  split; [|split].
  - intros p Hlt. unfold cond_partials. rewrite truth_spec by reflexivity. fold neg.
    destruct p as [|[|[|p]]]; [reflexivity| | |lia].
    + destruct neg; [now rewrite sparse_partials_scalar with (n := 1%nat)|now rewrite sparse_partials_vec with (n := 1%nat)].
    + destruct neg; [now rewrite sparse_partials_vec with (n := 1%nat)|now rewrite sparse_partials_scalar with (n := 1%nat)].
  - intros p Hlt Hch.
    assert (Hone : forall a : nat -> R, right_for k v p (Sparse (Coo 1 (fun k => k) (fun k => k) a)) <-> a 0%nat = 1).
    { intros a. unfold right_for. rewrite Ho, Hi.
      replace (nth p [[1%nat]; [1%nat]; [1%nat]] []) with [1%nat] by (destruct p as [|[|[|p]]]; [reflexivity..|lia]).
      change (size [1%nat]) with 1%nat.
      assert (Hp0 : p <> 0%nat) by (destruct Hch as [[_ ->]|[_ ->]]; discriminate).
      assert (D : partial_at (fun x' => value_of k (set_op v p x') 0%nat) (v p) 0 1).
      { unfold partial_at. apply derivable_pt_lim_ext with (f := fun t => t); [|apply derivable_pt_lim_id].
        intros z. rewrite HV. rewrite set_op_other by auto.
        destruct Hch as [[Hc ->]|[Hc ->]]; destruct (Rlt_dec (v 0%nat 0%nat) 0); try lra;
          rewrite set_op_same; reflexivity. }
      assert (Ea : coo_entry (Coo 1 (fun k => k) (fun k => k) a) 0 0 = a 0%nat).
      { unfold coo_entry. cbn. lra. }
      split.
      - intros [_ H]. specialize (H 0%nat 0%nat ltac:(lia) ltac:(lia)). rewrite Ea in H.
        unfold partial_at in *. eapply uniqueness_limite; [exact H|exact D].
      - intros E. split; [apply coo_one_ok|]. intros o i Hoo Hii. replace o with 0%nat by lia. replace i with 0%nat by lia.
        now rewrite Ea, E. }
    destruct Hch as [[Hc ->]|[Hc ->]]; unfold neg; destruct (Rlt_dec (v 0%nat 0%nat) 0); try lra;
      (split; [|apply Hone]); unfold jac_entry, coo_entry; cbn; lra.
  - intros p Hlt Hch.
    assert (D0 : forall i, (i < 1)%nat -> partial_at (fun x' => value_of k (set_op v p x') 0%nat) (v p) i 0).
    { intros i Hi0. replace i with 0%nat by lia. unfold partial_at.
      destruct (Nat.eq_dec p 0) as [->|Hp0].
      - apply derivable_pt_lim_ext_loc with (d := Rabs (v 0%nat 0%nat))
          (f := fun _ => if Rlt_dec (v 0%nat 0%nat) 0 then v 2%nat 0%nat else v 1%nat 0%nat).
        + now apply Rabs_pos_lt.
        + intros z Hz. rewrite HV. rewrite set_op_same, !set_op_other by discriminate. unfold upd. cbn [Nat.eqb].
          unfold Rabs in Hz. destruct (Rcase_abs (z - v 0%nat 0%nat)); destruct (Rcase_abs (v 0%nat 0%nat));
          destruct (Rlt_dec (v 0%nat 0%nat) 0); destruct (Rlt_dec z 0); auto; lra.
        + apply derivable_pt_lim_const.
      - apply derivable_pt_lim_ext with
          (f := fun _ => if Rlt_dec (v 0%nat 0%nat) 0 then v 2%nat 0%nat else v 1%nat 0%nat);
          [|apply derivable_pt_lim_const].
        intros z. rewrite HV, (set_op_other v p 0) by auto. unfold chosen in Hch.
        destruct (Rlt_dec (v 0%nat 0%nat) 0).
        + rewrite set_op_other; [reflexivity|]. intros <-. apply Hch. auto.
        + rewrite set_op_other; [reflexivity|]. intros <-. apply Hch. right. split; [lra|reflexivity]. }
    unfold right_for. rewrite Ho, Hi.
    replace (nth p [[1%nat]; [1%nat]; [1%nat]] []) with [1%nat] by (destruct p as [|[|[|p]]]; [reflexivity..|lia]).
    change (size [1%nat]) with 1%nat.
    assert (G : forall n, (n <= 1)%nat -> exact_jac 1 1 (fun x => value_of k (set_op v p x)) (v p)
                  (Sparse (Coo n (fun k => k) (fun k => k) (fun _ => 0)))).
    { intros n Hn. split; [split; cbn; intros; lia|]. intros o i Hoo Hii. replace o with 0%nat by lia.
      replace (coo_entry _ 0 i) with 0; [now apply D0|]. unfold coo_entry. cbn [nnz vals].
      rewrite rsum_zero; [reflexivity|]. intros j _. now destruct (_ && _). }
    destruct p as [|[|[|p]]]; [| | |lia].
    + unfold no_entries. split; [split; cbn; intros; lia|]. intros o i Hoo Hii. replace o with 0%nat by lia.
      exact (D0 i Hii).
    + unfold chosen in Hch. unfold neg. destruct (Rlt_dec (v 0%nat 0%nat) 0); [apply G; lia|].
      exfalso. apply Hch. right. split; [lra|reflexivity].
    + unfold chosen in Hch. unfold neg. destruct (Rlt_dec (v 0%nat 0%nat) 0); [|apply G; lia].
      exfalso. apply Hch. auto.
Qed.

(** the condition -1 selects 7, the condition 0 selects 5; the derivative
    declared for the selected branch is 7 *)
Example cond_instance :
  chosen (-1) 2 /\ chosen 0 1 /\ ~ chosen (-1) 1 /\
  three (Facts 1 [1%nat] [1%nat]) (Facts 2 [1%nat] [1%nat]) (Facts 3 [1%nat] [1%nat]).
Proof.
  unfold chosen, three. splits; [left; split; [lra|reflexivity]|right; split; [lra|reflexivity]|intros [[_ H]|[H _]]; [discriminate|lra]|].
  cbn. repeat constructor; cbn; lia.
Qed.
