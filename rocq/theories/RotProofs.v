(** Proofs about rotmat. *)
From Coq Require Import Reals Lra Lia Arith List Bool.
From Verif Require Import PyBase RSum NdArray Component JacSpec CompReorder CompRot SpecRot.
Import ListNotations.
Local Open Scope R_scope.

(** axis number and character *)
Definition axis_char (k : nat) : nat := (120 + k)%nat.

Lemma positions_ok : forall k, (k < 3)%nat -> exists t, rot_positions (axis_char k) = Some t.
Proof. intros [|[|[|k]]] H; [| | |lia]; eexists; reflexivity. Qed.

Ltac three H := match type of H with (?i < 3)%nat => destruct i as [|[|[|i]]]; [| | |lia] end.

Lemma rot_matrix_rotation : forall k t a, (k < 3)%nat -> rot_positions (axis_char k) = Some t ->
  rotation_about k a (rot_matrix t a).
Proof.
  intros k t a Hk Ht. pose proof (sin2_cos2 a) as Hsc. unfold Rsqr in Hsc.
  three Hk; cbn in Ht; inversion Ht; subst t; clear Ht; unfold rotation_about; splits.
  all: try (intros i j Hi Hj; three Hi; three Hj;
            unfold rot_matrix, set_entry; cbn [rsum fst snd cos1 cos2 sin1 sin2 one1 Nat.eqb andb]; lra).
  all: try (unfold det3, rot_matrix, set_entry; cbn [fst snd cos1 cos2 sin1 sin2 one1 Nat.eqb andb]; lra).
  all: intros i Hi; three Hi; unfold mat_vec3, e3, next, rot_matrix, set_entry;
       cbn [rsum fst snd cos1 cos2 sin1 sin2 one1 Nat.eqb andb]; lra.
Qed.

Lemma rotation_ext : forall k a M M',
  (forall i j, (i < 3)%nat -> (j < 3)%nat -> M i j = M' i j) ->
  rotation_about k a M -> rotation_about k a M'.
Proof.
  intros k a M M' E (H1 & H2 & H3 & H4). unfold rotation_about. splits.
  - intros i j Hi Hj. rewrite <- H1 by assumption. apply rsum_ext. intros l Hl.
    now rewrite !E.
  - rewrite <- H2. unfold det3. now rewrite !E by lia.
  - intros i Hi. rewrite <- H3 by assumption. unfold mat_vec3. apply rsum_ext. intros l Hl.
    now rewrite E.
  - intros i Hi. rewrite <- H4 by assumption. unfold mat_vec3. apply rsum_ext. intros l Hl.
    now rewrite E.
Qed.

Lemma rot_deriv_right : forall k t a i j, (k < 3)%nat -> rot_positions (axis_char k) = Some t ->
  (i < 3)%nat -> (j < 3)%nat ->
  derivable_pt_lim (fun a => rot_matrix t a i j) a (rot_deriv t a i j).
Proof.
  intros k t a i j Hk Ht Hi Hj.
  three Hk; cbn in Ht; inversion Ht; subst t; clear Ht; three Hi; three Hj;
    unfold rot_matrix, rot_deriv, set_entry; cbn [fst snd cos1 cos2 sin1 sin2 one1 Nat.eqb andb];
    first [ apply derivable_pt_lim_const | apply derivable_pt_lim_cos
          | apply derivable_pt_lim_sin
          | apply derivable_pt_lim_opp; apply derivable_pt_lim_sin ].
Qed.

Lemma rot_out_size : forall s, size (rot_out_shape s) = (size s * 9)%nat.
Proof.
  intros s. unfold rot_out_shape. destruct (list_eq_dec Nat.eq_dec s [1%nat]) as [->|]; [reflexivity|].
  rewrite size_app. reflexivity.
Qed.

Lemma split9 : forall n o, (o < n * 9)%nat ->
  exists k i j, (k < n)%nat /\ (i < 3)%nat /\ (j < 3)%nat /\ o = (k * 9 + (i * 3 + j))%nat.
Proof.
  intros n o H. exists (o / 9)%nat, ((o mod 9) / 3)%nat, (o mod 9 mod 3)%nat.
  pose proof (Nat.mod_upper_bound o 9 ltac:(lia)).
  splits.
  - apply Nat.div_lt_upper_bound; lia.
  - apply Nat.div_lt_upper_bound; lia.
  - apply Nat.mod_upper_bound. lia.
  - rewrite (Nat.div_mod o 9) at 1 by lia. rewrite (Nat.div_mod (o mod 9) 3) at 1 by lia. lia.
Qed.

Lemma unravel_9 : forall s k i j, (k < size s)%nat -> (i < 3)%nat -> (j < 3)%nat ->
  unravel (s ++ [3; 3]%nat) (k * 9 + (i * 3 + j)) = unravel s k ++ [i; j].
Proof.
  intros s k i j Hk Hi Hj.
  assert (Hin : inb (s ++ [3; 3]%nat) (unravel s k ++ [i; j])).
  { apply inb_app; [now rewrite unravel_length|]. split; [now apply unravel_inb|]. cbn. lia. }
  rewrite <- (unravel_ravel _ _ Hin). f_equal.
  rewrite ravel_app by now rewrite unravel_length. rewrite ravel_unravel by assumption.
  cbn [ravel size]. lia.
Qed.

Lemma per_angle_dat : forall m s x k i j, (k < size s)%nat -> (i < 3)%nat -> (j < 3)%nat ->
  dat (per_angle m s (Nd s x)) (k * 9 + (i * 3 + j))%nat = m (x k) i j.
Proof.
  intros m s x k i j Hk Hi Hj. cbn [per_angle of_fun dat]. rewrite unravel_9 by assumption.
  assert (Hl : length (unravel s k) = length s) by apply unravel_length.
  rewrite firstn_app, Hl, Nat.sub_diag, firstn_O, app_nil_r, firstn_all2 by lia.
  rewrite !app_nth2 by lia. rewrite Hl, Nat.sub_diag.
  replace (length s + 1 - length s)%nat with 1%nat by lia. cbn [nth].
  unfold get. cbn [shp dat]. now rewrite ravel_unravel.
Qed.

Lemma rot_cols_dat : forall n k i j, (k < n)%nat -> (i < 3)%nat -> (j < 3)%nat ->
  dat (rot_cols n) (k * 9 + (i * 3 + j))%nat = k.
Proof.
  intros n k i j Hk Hi Hj. cbn [rot_cols np_flatten of_fun dat unravel size nth].
  cbn [Nat.mul Nat.add]. apply (div_block k 9). lia.
Qed.

Lemma rotmat_lemma : forall s k, (k < 3)%nat -> correct (rot_comp s (axis_char k)) (rotmat_meaning k).
Proof.
  intros s k Hk. destruct (positions_ok k Hk) as [t Ht].
  unfold rot_comp. rewrite Ht.
  pose proof (rot_out_size s) as Hs. set (out := rot_out_shape s) in *.
  assert (Hp : forall m x, size (shp (per_angle m s x)) = (size s * 9)%nat).
  { intros m x. cbn [per_angle of_fun shp]. rewrite size_app. reflexivity. }
  assert (Ha : forall x, assign_output out (per_angle (rot_matrix t) s x) =
                 Some (np_reshape (per_angle (rot_matrix t) s x) out)).
  { intros x. unfold assign_output. rewrite Hp, Hs, Nat.eqb_refl. reflexivity. }
  set (F := fun (v : nat -> nat -> R) o => dat (per_angle (rot_matrix t) s (Nd s (v 0%nat))) o).
  apply correct_intro with (F := F).
  - intros v. cbn [comp1 c_compute c_ins c_out inputs_of length seq map nth].
    rewrite Ha. eexists. split; [reflexivity|]. splits; try reflexivity.
    exists (Nd s (v 0%nat)). splits; try reflexivity.
    + cbn [shp]. intros ->. split; [reflexivity|].
      apply rotation_ext with (M := rot_matrix t (v 0%nat 0%nat)).
      * intros i j Hi Hj. unfold get. cbn [np_reshape shp dat].
        pose proof (per_angle_dat (rot_matrix t) [1%nat] (v 0%nat) 0 i j
                      ltac:(cbn; lia) Hi Hj) as E.
        cbn [Nat.mul Nat.add] in E. rewrite <- E. f_equal.
        unfold out, rot_out_shape. destruct (list_eq_dec Nat.eq_dec [1%nat] [1%nat]); [|congruence].
        cbn [ravel size]. lia.
      * now apply rot_matrix_rotation.
    + cbn [shp]. intros Hne.
      assert (Eo : out = s ++ [3; 3]%nat).
      { unfold out, rot_out_shape. destruct (list_eq_dec Nat.eq_dec s [1%nat]); congruence. }
      split; [cbn [np_reshape shp]; exact Eo|].
      intros idx Hi. pose proof (ravel_lt _ _ Hi) as Hlt.
      apply rotation_ext with (M := rot_matrix t (v 0%nat (ravel s idx))).
      * intros i j Hi' Hj'. rewrite <- (per_angle_dat (rot_matrix t) s (v 0%nat)) by assumption.
        unfold get. cbn [np_reshape shp dat]. f_equal. rewrite Eo.
        rewrite ravel_app by now apply inb_length. cbn [ravel size]. lia.
      * now apply rot_matrix_rotation.
  - intros v p _ Hlt. cbn in Hlt. assert (p = 0)%nat by lia. subst p.
    cbn [comp1 c_partials c_ins c_out inputs_of length seq map nth].
    eexists (Sparse (Coo (size s * 9) _ _ _)). split.
    + rewrite sparse_partials_vec with (n := (size s * 9)%nat).
      * reflexivity.
      * cbn [np_arange shp]. now rewrite Hs.
      * cbn [rot_cols np_flatten of_fun shp size]. f_equal.
      * cbn [np_flatten shp]. now rewrite Hp.
    + cbn [exact_jac]. rewrite Hs.
      apply exact_sparse_gather with
        (g := fun o a => rot_matrix t a ((o mod 9) / 3)%nat (o mod 9 mod 3)%nat)
        (cs := dat (rot_cols (size s))).
      * intros o Ho. destruct (split9 _ _ Ho) as (q & i & j & Hq & Hi & Hj & ->).
        now rewrite rot_cols_dat.
      * intros x' o Ho. destruct (split9 _ _ Ho) as (q & i & j & Hq & Hi & Hj & ->).
        unfold F. change (set_op v 0 x' 0%nat) with x'.
        rewrite per_angle_dat, rot_cols_dat by assumption.
        rewrite mod_block, div_block, mod_block by lia. reflexivity.
      * intros o Ho. destruct (split9 _ _ Ho) as (q & i & j & Hq & Hi & Hj & ->).
        cbn [np_flatten dat]. rewrite rot_cols_dat, per_angle_dat by assumption.
        rewrite mod_block, div_block, mod_block by lia.
        now apply rot_deriv_right with (k := k).
Qed.

Theorem rotmat_correct : forall s k, (k < 3)%nat ->
  c_ins (rot_comp s (axis_char k)) = [s] /\
  correct (rot_comp s (axis_char k)) (rotmat_meaning k).
Proof. intros s k Hk. split; [reflexivity|now apply rotmat_lemma]. Qed.

Theorem rotmat_other_axis : forall s axis x, (axis < 120 \/ 122 < axis)%nat ->
  c_compute (rot_comp s axis) [x] = None.
Proof.
  intros s axis x H. cbn [rot_comp comp1 c_compute].
  destruct (rot_positions axis) as [t|] eqn:E; [|reflexivity].
  exfalso. revert E. unfold rot_positions.
  assert (Hc : (axis = 120 \/ axis = 121 \/ axis = 122)%nat \/
               (axis <> 120 /\ axis <> 121 /\ axis <> 122)%nat) by lia.
  destruct Hc as [Hc|(H1 & H2 & H3)]; [lia|].
  do 120 (destruct axis as [|axis]; [discriminate|]).
  destruct axis as [|[|[|axis]]]; try lia. discriminate.
Qed.

(** Concrete case: the rotation about z by a quarter turn sends x to y. *)
Example rot_instance : forall t, rot_positions (axis_char 2) = Some t ->
  mat_vec3 (rot_matrix t (PI / 2)) (e3 0) 1 = 1.
Proof.
  intros t Ht. cbn in Ht. inversion Ht; subst t.
  unfold mat_vec3, e3, rot_matrix, set_entry.
  cbn [rsum fst snd cos1 cos2 sin1 sin2 one1 Nat.eqb andb]. rewrite sin_PI2. lra.
Qed.
