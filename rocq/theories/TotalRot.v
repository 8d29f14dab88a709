(** The chain rule of rotation matrices. *)
From Coq Require Import Reals Lra Lia Arith List Bool ZArith Psatz.
From Verif Require Import PyBase RSum NdArray Component JacSpec JacOpen SpecNorm SpecExtremum SpecTotal TotalCalc
  TotalElem TotalLinear SpecRot.
Import ListNotations.
Local Open Scope R_scope.

(** the rotation by [a] about axis [k] *)
Definition rot_entry (k i j : nat) (a : R) : R :=
  if Nat.eqb j k then e3 k i
  else if Nat.eqb j (next k) then cos a * e3 (next k) i + sin a * e3 (next (next k)) i
  else cos a * e3 (next (next k)) i - sin a * e3 (next k) i.

Lemma rotation_unique k a M : (k < 3)%nat -> rotation_about k a M ->
  forall i j, (i < 3)%nat -> (j < 3)%nat -> M i j = rot_entry k i j a.
Proof.
  intros Hk (O & D & F & T).
  pose proof (sin2_cos2 a) as SC. unfold Rsqr in SC.
  assert (F0 := F 0%nat ltac:(lia)). assert (F1 := F 1%nat ltac:(lia)). assert (F2 := F 2%nat ltac:(lia)).
  assert (T0 := T 0%nat ltac:(lia)). assert (T1 := T 1%nat ltac:(lia)). assert (T2 := T 2%nat ltac:(lia)).
  assert (O02 := O 0%nat 2%nat ltac:(lia) ltac:(lia)).
  assert (O12 := O 1%nat 2%nat ltac:(lia) ltac:(lia)). assert (O01 := O 0%nat 1%nat ltac:(lia) ltac:(lia)).
  clear O F T. unfold mat_vec3, det3 in *. cbn [rsum] in *.
  destruct k as [|[|[|k]]]; [| | |lia]; unfold e3, next in *; cbn [Nat.eqb] in *.
  - assert (M 0%nat 0%nat = 1 /\ M 1%nat 0%nat = 0 /\ M 2%nat 0%nat = 0) as (A1 & A2 & A3) by (splits; lra).
    assert (M 0%nat 1%nat = 0 /\ M 1%nat 1%nat = cos a /\ M 2%nat 1%nat = sin a) as (B1 & B2 & B3) by (splits; lra).
    rewrite A1, A2, A3, B1, B2, B3 in *.
    assert (C1 : M 0%nat 2%nat = 0) by lra.
    assert (C2 : cos a * M 1%nat 2%nat + sin a * M 2%nat 2%nat = 0) by lra.
    assert (C3 : cos a * M 2%nat 2%nat - sin a * M 1%nat 2%nat = 1) by lra.
    assert (C4 : M 2%nat 2%nat = cos a).
    { replace (M 2%nat 2%nat) with ((sin a * sin a + cos a * cos a) * M 2%nat 2%nat) by (rewrite SC; ring).
      replace ((sin a * sin a + cos a * cos a) * M 2%nat 2%nat) with
        (sin a * (cos a * M 1%nat 2%nat + sin a * M 2%nat 2%nat) + cos a * (cos a * M 2%nat 2%nat - sin a * M 1%nat 2%nat)) by ring.
      rewrite C2, C3. ring. }
    assert (C5 : M 1%nat 2%nat = - sin a).
    { replace (M 1%nat 2%nat) with ((sin a * sin a + cos a * cos a) * M 1%nat 2%nat) by (rewrite SC; ring).
      replace ((sin a * sin a + cos a * cos a) * M 1%nat 2%nat) with
        (cos a * (cos a * M 1%nat 2%nat + sin a * M 2%nat 2%nat) - sin a * (cos a * M 2%nat 2%nat - sin a * M 1%nat 2%nat)) by ring.
      rewrite C2, C3. ring. }
    intros i j Hi Hj. unfold rot_entry, e3, next.
    destruct i as [|[|[|i]]]; [| | |lia]; (destruct j as [|[|[|j]]]; [| | |lia]); cbn [Nat.eqb]; lra.
  - assert (M 0%nat 1%nat = 0 /\ M 1%nat 1%nat = 1 /\ M 2%nat 1%nat = 0) as (A1 & A2 & A3) by (splits; lra).
    assert (M 0%nat 2%nat = sin a /\ M 1%nat 2%nat = 0 /\ M 2%nat 2%nat = cos a) as (B1 & B2 & B3) by (splits; lra).
    rewrite A1, A2, A3, B1, B2, B3 in *.
    assert (C1 : M 1%nat 0%nat = 0) by lra.
    assert (C2 : cos a * M 2%nat 0%nat + sin a * M 0%nat 0%nat = 0) by lra.
    assert (C3 : cos a * M 0%nat 0%nat - sin a * M 2%nat 0%nat = 1) by lra.
    assert (C4 : M 0%nat 0%nat = cos a).
    { replace (M 0%nat 0%nat) with ((sin a * sin a + cos a * cos a) * M 0%nat 0%nat) by (rewrite SC; ring).
      replace ((sin a * sin a + cos a * cos a) * M 0%nat 0%nat) with
        (sin a * (cos a * M 2%nat 0%nat + sin a * M 0%nat 0%nat) + cos a * (cos a * M 0%nat 0%nat - sin a * M 2%nat 0%nat)) by ring.
      rewrite C2, C3. ring. }
    assert (C5 : M 2%nat 0%nat = - sin a).
    { replace (M 2%nat 0%nat) with ((sin a * sin a + cos a * cos a) * M 2%nat 0%nat) by (rewrite SC; ring).
      replace ((sin a * sin a + cos a * cos a) * M 2%nat 0%nat) with
        (cos a * (cos a * M 2%nat 0%nat + sin a * M 0%nat 0%nat) - sin a * (cos a * M 0%nat 0%nat - sin a * M 2%nat 0%nat)) by ring.
      rewrite C2, C3. ring. }
    intros i j Hi Hj. unfold rot_entry, e3, next.
    destruct i as [|[|[|i]]]; [| | |lia]; (destruct j as [|[|[|j]]]; [| | |lia]); cbn [Nat.eqb]; lra.
  - assert (M 0%nat 2%nat = 0 /\ M 1%nat 2%nat = 0 /\ M 2%nat 2%nat = 1) as (A1 & A2 & A3) by (splits; lra).
    assert (M 0%nat 0%nat = cos a /\ M 1%nat 0%nat = sin a /\ M 2%nat 0%nat = 0) as (B1 & B2 & B3) by (splits; lra).
    rewrite A1, A2, A3, B1, B2, B3 in *.
    assert (C1 : M 2%nat 1%nat = 0) by lra.
    assert (C2 : cos a * M 0%nat 1%nat + sin a * M 1%nat 1%nat = 0) by lra.
    assert (C3 : cos a * M 1%nat 1%nat - sin a * M 0%nat 1%nat = 1) by lra.
    assert (C4 : M 1%nat 1%nat = cos a).
    { replace (M 1%nat 1%nat) with ((sin a * sin a + cos a * cos a) * M 1%nat 1%nat) by (rewrite SC; ring).
      replace ((sin a * sin a + cos a * cos a) * M 1%nat 1%nat) with
        (sin a * (cos a * M 0%nat 1%nat + sin a * M 1%nat 1%nat) + cos a * (cos a * M 1%nat 1%nat - sin a * M 0%nat 1%nat)) by ring.
      rewrite C2, C3. ring. }
    assert (C5 : M 0%nat 1%nat = - sin a).
    { replace (M 0%nat 1%nat) with ((sin a * sin a + cos a * cos a) * M 0%nat 1%nat) by (rewrite SC; ring).
      replace ((sin a * sin a + cos a * cos a) * M 0%nat 1%nat) with
        (cos a * (cos a * M 0%nat 1%nat + sin a * M 1%nat 1%nat) - sin a * (cos a * M 1%nat 1%nat - sin a * M 0%nat 1%nat)) by ring.
      rewrite C2, C3. ring. }
    intros i j Hi Hj. unfold rot_entry, e3, next.
    destruct i as [|[|[|i]]]; [| | |lia]; (destruct j as [|[|[|j]]]; [| | |lia]); cbn [Nat.eqb]; lra.
Qed.

Lemma smooth_rot ss v p n k i j : (p < length ss)%nat -> (n < size (nth p ss []))%nat ->
  smooth_at ss (fun u => rot_entry k i j (u p n)) v.
Proof.
  intros Hp Hn. unfold rot_entry.
  assert (C : smooth_at ss (fun u => cos (u p n)) v).
  { apply smooth_comp with (f := fun u => u p n) (g := cos) (l := - sin (v p n)).
    - now apply smooth_entry.
    - apply derivable_pt_lim_cos. }
  assert (S : smooth_at ss (fun u => sin (u p n)) v).
  { apply smooth_comp with (f := fun u => u p n) (g := sin) (l := cos (v p n)).
    - now apply smooth_entry.
    - apply derivable_pt_lim_sin. }
  destruct (j =? k)%nat; [apply smooth_const|].
  destruct (j =? next k)%nat; [apply smooth_plus|apply smooth_minus]; (apply smooth_mult; [assumption|apply smooth_const]).
Qed.

Lemma chain_rot c s k : (k < 3)%nat -> c_ins c = [s] ->
  c_out c = (if list_eq_dec Nat.eq_dec s [1%nat] then [3; 3]%nat else s ++ [3; 3]%nat) ->
  correct c (rotmat_meaning k) -> ruled (fun _ => True) c (rotmat_meaning k).
Proof.
  intros Hk Hi Ho C. apply chain_rule_correct with (1 := C). rewrite Hi. intros v o H.
  pose proof (unravel_inb _ _ H) as IB.
  destruct (list_eq_dec Nat.eq_dec s [1%nat]) as [->|NE].
  - rewrite Ho in *.
    assert (exists i j, unravel [3; 3]%nat o = [i; j] /\ (i < 3)%nat /\ (j < 3)%nat) as (i & j & E & Bi & Bj).
    { remember (unravel [3; 3]%nat o) as l. destruct l as [|i [|j [|]]]; cbn in IB; try tauto.
      exists i, j. tauto. }
    exists (fun u => rot_entry k i j (u 0%nat 0%nat)). split; [apply smooth_rot; cbn; auto|].
    intros u y Hs (x & Ex & M & _). cbn in Ex. injection Ex as <-. destruct (M eq_refl) as [_ R].
    rewrite dat_get by now rewrite Hs. rewrite Hs, E.
    exact (rotation_unique k _ _ Hk R i j Bi Bj).
  - rewrite Ho in *. destruct (inb_split s [3; 3]%nat _ IB) as (idx & ij & E & I0 & I1).
    destruct ij as [|i [|j [|]]]; cbn in I1; try tauto. destruct I1 as (Bi & Bj & _).
    exists (fun u => rot_entry k i j (u 0%nat (ravel s idx))).
    split; [apply smooth_rot; cbn; auto; now apply ravel_lt|].
    intros u y Hs (x & Ex & _ & M). cbn in Ex. injection Ex as <-. destruct (M NE) as [_ R].
    rewrite dat_get by now rewrite Hs. rewrite Hs, E.
    exact (rotation_unique k _ _ Hk (R idx I0) i j Bi Bj).
Qed.
