(** Proofs about the products. *)
From Coq Require Import Reals Lra Lia Arith List Bool ZArith.
From Verif Require Import PyBase RSum NdArray NdEinsum Component JacSpec CompReorder ReorderProofs
  CompReduce SpecReduce ReduceProofs CompProduct SpecProduct.
Import ListNotations.
Local Open Scope R_scope.

Lemma correct2 : forall s0 s1 s' f d0 d1 (meaning : list (nd R) -> nd R -> Prop)
    (F : (nat -> R) -> (nat -> R) -> nat -> R),
  (forall x0 x1, exists y, f (Nd s0 x0) (Nd s1 x1) = Some y /\ shp y = s' /\
     meaning [Nd s0 x0; Nd s1 x1] y /\ forall o, (o < size s')%nat -> dat y o = F x0 x1 o) ->
  (forall x0 x1, exists j, d0 (Nd s0 x0) (Nd s1 x1) = Some j /\
     exact_jac (size s') (size s0) (fun x => F x x1) x0 j) ->
  (forall x0 x1, exists j, d1 (Nd s0 x0) (Nd s1 x1) = Some j /\
     exact_jac (size s') (size s1) (fun x => F x0 x) x1 j) ->
  correct (comp2 s0 s1 s' f d0 d1) meaning.
Proof.
  intros s0 s1 s' f d0 d1 meaning F Hf H0 H1.
  apply correct_intro with (F := fun v => F (v 0%nat) (v 1%nat)).
  - intros v. cbn [comp2 c_compute c_ins c_out inputs_of length seq map nth]. apply Hf.
  - intros v p _ Hp. cbn [comp2 c_ins length] in Hp.
    cbn [comp2 c_partials c_ins c_out inputs_of length seq map].
    destruct p as [|[|p]]; [| |lia]; cbn [nth].
    + destruct (H0 (v 0%nat) (v 1%nat)) as (j & E & He). exists j. split; [exact E|exact He].
    + destruct (H1 (v 0%nat) (v 1%nat)) as (j & E & He). exists j. split; [exact E|exact He].
Qed.

(** ---- matvec ---- *)

Lemma matvec_correct : forall m n,
  exists c, matvec_comp [m; n] [n] = Some c /\ c_ins c = [[m; n]; [n]] /\ c_out c = [m] /\
    correct c (matvec_meaning m n).
Proof.
  intros m n. unfold matvec_comp. rewrite Nat.eqb_refl.
  eexists. split; [reflexivity|]. split; [reflexivity|]. split; [reflexivity|].
  assert (Hs : size [m] = m) by (cbn; lia).
  apply correct2 with (F := fun a b o => rsum n (fun j => a (o * n + j)%nat * b j)).
  - intros x0 x1. eexists. split; [|split; [|split]].
    + unfold assign_output. cbn [np_matvec of_fun shp]. rewrite Nat.eqb_refl. reflexivity.
    + reflexivity.
    + exists (Nd [m; n] x0), (Nd [n] x1). splits; try reflexivity.
      intros i Hi. unfold get. cbn [np_reshape shp dat np_matvec of_fun ravel size unravel nth].
      rewrite Nat.mul_1_r, Nat.add_0_r, Nat.div_1_r. cbn [get shp dat ravel size].
      apply rsum_ext. intros j Hj. unfold get. cbn [shp dat ravel size].
      f_equal; f_equal; lia.
    + intros o Ho. cbn [np_reshape dat np_matvec of_fun unravel size nth].
      rewrite Nat.div_1_r. apply rsum_ext. intros j Hj. unfold get. cbn [shp dat ravel size].
      f_equal; f_equal; lia.
  - intros x0 x1.
    exists (Sparse (Coo (m * n) (dat (np_repeat (np_arange m) n)) (fun k => k)
                        (dat (np_tile (Nd [n] x1) m)))).
    split.
    + rewrite sparse_partials_vec with (n := (m * n)%nat); cbn; try reflexivity; f_equal; lia.
    + cbn [exact_jac]. rewrite Hs.
      apply exact_sparse_rows with (n := n) (C := fun b j => (b * n + j)%nat)
                                   (V := fun b j => x1 j).
      * reflexivity.
      * intros b j Hb Hj. cbn [rows cols vals np_repeat np_arange dat np_tile last_extent shp last].
        splits; try reflexivity.
        -- now apply div_block.
        -- rewrite (Nat.div_small (b * n + j)), (Nat.mod_small (b * n + j)) by nia.
           rewrite mod_block by assumption. f_equal.
      * intros b j Hb Hj. cbn. nia.
      * intros. lia.
      * intros x' b Hb. apply rsum_ext. intros. lra.
  - intros x0 x1. eexists. split; [reflexivity|]. cbn [exact_jac]. split.
    + cbn. lia.
    + apply dense_linear_jacobian. intros x' o Ho. cbn [size]. rewrite Nat.mul_1_r.
      apply rsum_ext. intros j Hj. reflexivity.
Qed.

(** ---- matmat ---- *)

Lemma size_matmat_out : forall m p, size (matmat_out_shape m p) = (m * p)%nat.
Proof.
  intros m p. unfold matmat_out_shape. destruct (Nat.eqb_spec p 1) as [->|]; cbn; lia.
Qed.

Lemma split_out : forall m p o, (o < m * p)%nat ->
  exists i k, (i < m)%nat /\ (k < p)%nat /\ o = (i * p + k)%nat.
Proof.
  intros m p o H. assert (p <> 0)%nat by nia.
  exists (o / p)%nat, (o mod p)%nat. splits.
  - apply Nat.div_lt_upper_bound; lia.
  - now apply Nat.mod_upper_bound.
  - rewrite (Nat.div_mod o p) at 1 by assumption. lia.
Qed.

(** the two tilings of matmat *)
Lemma tile_matrix : forall (A : Type) (x : nat -> A) m n p i k j,
  (i < m)%nat -> (k < p)%nat -> (j < n)%nat ->
  dat (np_tile (Nd [m; n] x) p) ((i * p + k) * n + j)%nat = x (i * n + j)%nat.
Proof.
  intros A x m n p i k j Hi Hk Hj. cbn [np_tile dat shp last_extent last]. f_equal.
  assert (Hkj : (k * n + j < n * p)%nat).
  { assert ((k + 1) * n <= p * n)%nat by (apply Nat.mul_le_mono_r; lia). nia. }
  replace ((i * p + k) * n + j)%nat with (i * (n * p) + (k * n + j))%nat by nia.
  rewrite div_block, mod_block by exact Hkj. now rewrite mod_block.
Qed.

Lemma tile_transposed : forall (A : Type) (x : nat -> A) m n p i k j,
  (i < m)%nat -> (k < p)%nat -> (j < n)%nat ->
  dat (np_tile (np_flatten (np_transpose (Nd [n; p] x))) m) ((i * p + k) * n + j)%nat =
  x (j * p + k)%nat.
Proof.
  intros A x m n p i k j Hi Hk Hj.
  cbn [np_tile dat shp last_extent last np_flatten np_transpose of_fun].
  cbn [rev app]. replace (size [p; n]) with (p * n)%nat by (cbn; lia).
  assert (Hkj : (k * n + j < p * n)%nat).
  { assert ((k + 1) * n <= p * n)%nat by (apply Nat.mul_le_mono_r; lia). nia. }
  assert (Hall : (i * (p * n) + (k * n + j) < p * n * m)%nat).
  { assert ((i + 1) * (p * n) <= m * (p * n))%nat by (apply Nat.mul_le_mono_r; lia). nia. }
  replace ((i * p + k) * n + j)%nat with (i * (p * n) + (k * n + j))%nat by nia.
  rewrite (Nat.div_small (i * (p * n) + (k * n + j))) by exact Hall.
  rewrite (Nat.mod_small (i * (p * n) + (k * n + j))) by exact Hall.
  rewrite mod_block by exact Hkj. cbn [Nat.mul Nat.add].
  cbn [unravel size]. rewrite Nat.mul_1_r, Nat.div_1_r.
  rewrite div_block, mod_block by assumption. cbn [rev app].
  unfold get. cbn [shp dat ravel size]. f_equal. nia.
Qed.

Lemma matmat_core_correct : forall m n p, correct (matmat_core m n p) (matmat_meaning m n p).
Proof.
  intros m n p. unfold matmat_core.
  pose proof (size_matmat_out m p) as Hs.
  set (out := matmat_out_shape m p) in *.
  assert (Hr : forall o j, (j < n)%nat ->
             dat (np_repeat (np_arange (size out)) n) (o * n + j) = o).
  { intros o j Hj. cbn [np_repeat np_arange dat]. now apply div_block. }
  assert (Hm : forall x0 x1 o, (o < m * p)%nat ->
     dat (np_matmat (Nd [m; n] x0) (Nd [n; p] x1) m n p) o =
     rsum n (fun j => x0 ((o / p) * n + j)%nat * x1 (j * p + o mod p)%nat)).
  { intros x0 x1 o Ho. cbn [np_matmat of_fun dat]. cbn [unravel size nth].
    rewrite Nat.mul_1_r, Nat.div_1_r. unfold get. cbn [shp dat ravel size].
    apply rsum_ext. intros j Hj. f_equal; f_equal; lia. }
  apply correct2 with (F := fun a b o =>
     rsum n (fun j => a ((o / p) * n + j)%nat * b (j * p + o mod p)%nat)).
  - intros x0 x1. exists (np_reshape (np_matmat (Nd [m; n] x0) (Nd [n; p] x1) m n p) out).
    splits.
    + unfold assign_output. cbn [np_matmat of_fun shp].
      replace (size [m; p]) with (size out) by (rewrite Hs; cbn; lia).
      now rewrite Nat.eqb_refl.
    + reflexivity.
    + exists (Nd [m; n] x0), (Nd [n; p] x1). splits; try reflexivity.
      cbn [np_reshape shp]. unfold out, matmat_out_shape.
      destruct (Nat.eqb_spec p 1) as [->|Hp].
      * right. splits; try reflexivity. intros i Hi. unfold get at 1.
        cbn [np_reshape shp dat ravel size]. rewrite Nat.mul_1_r, Nat.add_0_r.
        rewrite Hm by lia. rewrite Nat.div_1_r, Nat.mod_1_r.
        apply rsum_ext. intros j Hj. unfold get. cbn [shp dat ravel size].
        f_equal; f_equal; lia.
      * left. splits; try reflexivity. intros i k Hi Hk. unfold get at 1.
        cbn [np_reshape shp dat ravel size]. rewrite !Nat.mul_1_r, Nat.add_0_r.
        rewrite Hm by nia. rewrite div_block, mod_block by assumption.
        apply rsum_ext. intros j Hj. unfold get. cbn [shp dat ravel size].
        f_equal; f_equal; lia.
    + intros o Ho. cbn [np_reshape dat]. apply Hm. lia.
  - intros x0 x1.
    eexists (Sparse (Coo (m * p * n) _ _ _)). split.
    + rewrite sparse_partials_vec with (n := (m * p * n)%nat).
      * reflexivity.
      * cbn [np_repeat np_arange shp]. f_equal. cbn [size]. rewrite Hs. lia.
      * cbn [np_flatten np_tile np_reshape shp tile_last size]. f_equal. nia.
      * cbn [np_tile np_flatten np_transpose of_fun shp rev app tile_last size]. f_equal. nia.
    + cbn [exact_jac]. rewrite Hs.
      apply exact_sparse_rows with (n := n)
        (C := fun o j => ((o / p) * n + j)%nat)
        (V := fun o j => x1 (j * p + o mod p)%nat).
      * reflexivity.
      * intros b j Hb Hj. cbn [rows cols vals].
        destruct (split_out m p b Hb) as (i & k & Hi & Hk & ->).
        rewrite div_block, mod_block by assumption.
        splits.
        -- now apply Hr.
        -- exact (tile_matrix nat (fun k => k) m n p i k j Hi Hk Hj).
        -- now apply tile_transposed.
      * intros b j Hb Hj. destruct (split_out m p b Hb) as (i & k & Hi & Hk & ->).
        rewrite div_block by assumption. cbn [size]. nia.
      * intros. lia.
      * intros x' b Hb. apply rsum_ext. intros. lra.
  - intros x0 x1.
    eexists (Sparse (Coo (m * p * n) _ _ _)). split.
    + rewrite sparse_partials_vec with (n := (m * p * n)%nat).
      * reflexivity.
      * cbn [np_repeat np_arange shp]. f_equal. cbn [size]. rewrite Hs. lia.
      * cbn [np_tile np_flatten np_transpose of_fun np_reshape shp rev app tile_last size]. f_equal. nia.
      * cbn [np_flatten np_tile np_reshape shp tile_last size]. f_equal. nia.
    + cbn [exact_jac]. rewrite Hs.
      apply exact_sparse_rows with (n := n)
        (C := fun o j => (j * p + o mod p)%nat)
        (V := fun o j => x0 ((o / p) * n + j)%nat).
      * reflexivity.
      * intros b j Hb Hj. cbn [rows cols vals].
        destruct (split_out m p b Hb) as (i & k & Hi & Hk & ->).
        rewrite div_block, mod_block by assumption.
        splits.
        -- now apply Hr.
        -- exact (tile_transposed nat (fun k => k) m n p i k j Hi Hk Hj).
        -- exact (tile_matrix R x0 m n p i k j Hi Hk Hj).
      * intros b j Hb Hj. destruct (split_out m p b Hb) as (i & k & Hi & Hk & ->).
        rewrite mod_block by assumption. cbn [size]. nia.
      * intros b j j' Hb Hj Hj' E. destruct (split_out m p b Hb) as (i & k & Hi & Hk & ->).
        nia.
      * intros x' b Hb. reflexivity.
Qed.

(** ---- std.matmat ---- *)

Lemma matmat_correct : forall m n p,
  exists c, matmat_comp [m; n] [n; p] = Some (c, [m; p]) /\
    c_ins c = [[m; n]; [n; p]] /\ correct c (matmat_meaning m n p).
Proof.
  intros m n p. exists (matmat_core m n p). unfold matmat_comp. rewrite Nat.eqb_refl.
  splits; try reflexivity. apply matmat_core_correct.
Qed.

Lemma matmat_vector_correct : forall m n,
  exists c, matmat_comp [m; n] [n] = Some (c, [m; 1]%nat) /\
    c_ins c = [[m; n]; [n; 1]]%nat /\ correct c (matmat_meaning m n 1).
Proof.
  intros m n. exists (matmat_core m n 1). unfold matmat_comp. rewrite Nat.eqb_refl.
  splits; try reflexivity. apply matmat_core_correct.
Qed.

Lemma matrix_products_reject : forall m n n' p, n <> n' ->
  matvec_comp [m; n] [n'] = None /\ matmat_comp [m; n] [n'; p] = None /\
  matmat_comp [m; n] [n'] = None.
Proof.
  intros m n n' p H. unfold matvec_comp, matmat_comp.
  apply Nat.eqb_neq in H. rewrite H. auto.
Qed.

(** ---- vector inner product ---- *)

Lemma vector_inner_correct : forall n, correct (vector_inner_comp n) (vector_inner_meaning n).
Proof.
  intros n. unfold vector_inner_comp.
  assert (Hn : size [n] = n) by (cbn; lia).
  apply correct2 with (F := fun a b o => rsum n (fun i => a i * b i)).
  - intros x0 x1. eexists. split; [reflexivity|]. splits.
    + reflexivity.
    + exists (Nd [n] x0), (Nd [n] x1). splits; try reflexivity.
      unfold get at 1. cbn [np_reshape shp dat np_dot ravel size].
      rewrite Nat.mul_1_r. apply rsum_ext. intros i Hi. unfold get.
      cbn [shp dat ravel size]. f_equal; f_equal; lia.
    + intros o Ho. cbn [np_reshape dat np_dot shp]. now rewrite Hn.
  - intros x0 x1. eexists. split; [reflexivity|]. cbn [exact_jac]. rewrite Hn. split.
    + cbn. lia.
    + apply dense_linear_jacobian. intros x' o Ho. cbn in Ho.
      assert (o = 0)%nat by lia. subst o. apply rsum_ext. intros i Hi.
      unfold dense_entry. cbn. lra.
  - intros x0 x1. eexists. split; [reflexivity|]. cbn [exact_jac]. rewrite Hn. split.
    + cbn. lia.
    + apply dense_linear_jacobian. intros x' o Ho. cbn in Ho.
      assert (o = 0)%nat by lia. subst o. apply rsum_ext. intros i Hi.
      unfold dense_entry. cbn. lra.
Qed.

(** ---- inserting an axis ---- *)

Lemma axis_sum_none : forall axes s i f idx,
  (forall a, In a axes -> (a < i)%nat) -> length idx = length s ->
  axis_sum i axes s f idx = f idx.
Proof.
  induction s as [|n s IH]; intros i f idx H Hl.
  - destruct idx; [reflexivity|discriminate].
  - destruct idx as [|h t]; [discriminate|]. cbn [axis_sum].
    destruct (existsb (Nat.eqb i) axes) eqn:E.
    + apply existsb_exists in E. destruct E as (a & Ha & Ea). apply Nat.eqb_eq in Ea.
      specialize (H a Ha). lia.
    + cbn [hd tl]. rewrite IH; [reflexivity| |cbn in Hl; lia].
      intros a Ha. specialize (H a Ha). lia.
Qed.

Lemma axis_sum_one : forall a s i f idx,
  (a < length s)%nat -> length s = S (length idx) ->
  axis_sum i [(i + a)%nat] s f idx = rsum (nth a s 0%nat) (fun q => f (insert_at a q idx)).
Proof.
  induction a as [|a IH]; intros s i f idx Ha Hl; destruct s as [|n s]; cbn in Ha; try lia.
  - cbn [axis_sum existsb nth]. rewrite Nat.add_0_r, Nat.eqb_refl. cbn [orb].
    apply rsum_ext. intros q Hq. rewrite axis_sum_none.
    + reflexivity.
    + intros b [<-|[]]. lia.
    + cbn in Hl. lia.
  - destruct idx as [|h t]; [cbn in Hl; lia|].
    cbn [axis_sum existsb nth hd tl].
    destruct (Nat.eqb_spec i (i + S a)) as [E|_]; [lia|]. cbn [orb].
    replace (i + S a)%nat with (S i + a)%nat by lia.
    rewrite IH by (cbn in Hl; lia). reflexivity.
Qed.

Lemma delete_insert : forall a q l i, (a <= length l)%nat ->
  delete_from i [(i + a)%nat] (insert_at a q l) = l.
Proof.
  assert (Hn : forall (l : list nat) i b, (b < i)%nat -> delete_from i [b] l = l).
  { induction l as [|x l IH]; intros i b H; [reflexivity|]. cbn [delete_from existsb].
    destruct (Nat.eqb_spec i b); [lia|]. cbn [orb]. f_equal. apply IH. lia. }
  unfold insert_at. induction a as [|a IH]; intros q l i H.
  - cbn [firstn skipn app delete_from existsb]. rewrite Nat.add_0_r, Nat.eqb_refl. cbn [orb].
    apply Hn. lia.
  - destruct l as [|x l]; [cbn in H; lia|].
    cbn [firstn skipn app delete_from existsb].
    destruct (Nat.eqb_spec i (i + S a)); [lia|]. cbn [orb]. f_equal.
    replace (i + S a)%nat with (S i + a)%nat by lia. apply IH. cbn in H. lia.
Qed.

Lemma insert_delete : forall a l i, (a < length l)%nat ->
  insert_at a (nth a l 0%nat) (delete_from i [(i + a)%nat] l) = l.
Proof.
  assert (Hn : forall (l : list nat) i b, (b < i)%nat -> delete_from i [b] l = l).
  { induction l as [|x l IH]; intros i b H; [reflexivity|]. cbn [delete_from existsb].
    destruct (Nat.eqb_spec i b); [lia|]. cbn [orb]. f_equal. apply IH. lia. }
  unfold insert_at. induction a as [|a IH]; intros l i H; destruct l as [|x l]; cbn in H; try lia.
  - cbn [delete_from existsb nth]. rewrite Nat.add_0_r, Nat.eqb_refl. cbn [orb].
    rewrite Hn by lia. reflexivity.
  - cbn [delete_from existsb nth].
    destruct (Nat.eqb_spec i (i + S a)); [lia|]. cbn [orb firstn skipn app]. f_equal.
    replace (i + S a)%nat with (S i + a)%nat by lia. apply IH. lia.
Qed.

Lemma insert_length : forall a q l, length (insert_at a q l) = S (length l).
Proof.
  intros a q l. unfold insert_at. rewrite app_length. cbn [length].
  rewrite <- (firstn_skipn a l) at 3. rewrite app_length. lia.
Qed.

Lemma nth_insert : forall a q l, (a <= length l)%nat -> nth a (insert_at a q l) 0%nat = q.
Proof.
  intros a q l H. unfold insert_at. rewrite app_nth2 by (rewrite firstn_length; lia).
  rewrite firstn_length, Nat.min_l by assumption. now rewrite Nat.sub_diag.
Qed.

Lemma inb_insert : forall a n s q l, (a <= length s)%nat ->
  (inb (insert_at a n s) (insert_at a q l) <-> (q < n)%nat /\ inb s l).
Proof.
  unfold insert_at. induction a as [|a IH]; intros n s q l H.
  - cbn [firstn skipn app inb]. tauto.
  - destruct s as [|m s]; [cbn in H; lia|]. destruct l as [|x l].
    + cbn [firstn skipn app inb]. destruct (firstn a s ++ n :: skipn a s) eqn:E.
      * destruct (firstn a s); discriminate.
      * cbn [inb]. tauto.
    + cbn [firstn skipn app inb]. rewrite IH by (cbn in H; lia). tauto.
Qed.

Lemma map_insert : forall (f : nat -> nat) a q l,
  map f (insert_at a q l) = insert_at a (f q) (map f l).
Proof. intros. unfold insert_at. now rewrite map_app, firstn_map, map_cons, skipn_map. Qed.

(** ---- dot ---- *)

Lemma dot_vectors_correct : forall n axis,
  exists c, dot_comp [n] [n] axis = Some c /\ c_ins c = [[n]; [n]] /\
    correct c (vector_inner_meaning n).
Proof.
  intros n axis. exists (vector_inner_comp n). unfold dot_comp.
  destruct (list_eq_dec Nat.eq_dec [n] [n]); [|congruence].
  splits; try reflexivity. apply vector_inner_correct.
Qed.

Lemma norm_axis_named : forall r z a, axis_named r z a -> norm_axis r z = Some a.
Proof.
  intros r z a H. pose proof (norm_axes_named r [z] [a] (Forall2_cons _ _ H (Forall2_nil _))) as E.
  cbn in E. destruct (norm_axis r z) as [b|]; congruence.
Qed.

Lemma dot_tensors_correct : forall s z a,
  (2 <= length s)%nat -> axis_named (length s) z a -> nth a s 0%nat = 3%nat ->
  exists c, dot_comp s s (Some z) = Some c /\ c_ins c = [s; s] /\
    c_out c = drop_axes [a] s /\ correct c (dot_meaning a).
Proof.
  intros s z a Hr Hz H3.
  assert (Ha : (a < length s)%nat) by apply Hz.
  unfold dot_comp. destruct (list_eq_dec Nat.eq_dec s s); [|congruence].
  rewrite (norm_axis_named _ _ _ Hz), H3. cbn [Nat.eqb].
  destruct s as [|n0 [|n1 s]]; [cbn in Hr; lia|cbn in Hr; lia|].
  set (sh := n0 :: n1 :: s) in *.
  eexists. split; [reflexivity|]. split; [reflexivity|]. split; [apply delete_drop|].
  assert (Hd : forall x0 x1 o, (o < size (delete [a] sh))%nat ->
    dat (np_sum_axes (np_map2 Rmult (Nd sh x0) (Nd sh x1)) [a]) o =
    rsum (size sh) (fun k => if Nat.eqb (row_of sh [a] k) o then x0 k * x1 k else 0)).
  { intros x0 x1 o Ho. unfold np_map2. cbn [shp dat]. now apply np_sum_axes_dat. }
  assert (Hp : forall w, coo_pattern_ok (size (delete [a] sh)) (size sh)
                 (Coo (size sh) (row_of sh [a]) (fun k => k) w)).
  { intros w. split; cbn [nnz rows cols vals]; intros; [split; [now apply row_of_lt|assumption]|assumption]. }
  assert (Hins : insert_at a 3 (delete [a] sh) = sh).
  { rewrite <- H3. apply (insert_delete a sh 0). exact Ha. }
  assert (Hlen : (a <= length (delete [a] sh))%nat).
  { pose proof (insert_length a 3 (delete [a] sh)) as E. rewrite Hins in E. lia. }
  apply correct2 with (F := fun x0 x1 o =>
    rsum (size sh) (fun k => if Nat.eqb (row_of sh [a] k) o then x0 k * x1 k else 0)).
  - intros x0 x1. eexists. split; [reflexivity|]. splits.
    + reflexivity.
    + exists (Nd sh x0), (Nd sh x1). splits; try reflexivity.
      * cbn [np_sum_axes of_fun shp np_map2]. symmetry. exact Hins.
      * intros idx Hi. cbn [np_sum_axes of_fun shp np_map2] in Hi.
        unfold np_sum_axes. rewrite get_of_fun by exact Hi.
        cbn [np_map2 shp].
        pose proof (axis_sum_one a sh 0 (get (np_map2 Rmult (Nd sh x0) (Nd sh x1))) idx) as E.
        cbn [Nat.add] in E. rewrite E.
        -- rewrite H3. apply rsum_ext. intros q Hq. reflexivity.
        -- exact Ha.
        -- apply inb_length in Hi. rewrite Hi.
           pose proof (insert_length a 3 (delete [a] sh)) as E'. rewrite Hins in E'. exact E'.
    + intros o Ho. now apply Hd.
  - intros x0 x1. eexists (Sparse (Coo (size sh) (row_of sh [a]) (fun k => k) _)). split.
    + rewrite sparse_partials_vec with (n := size sh); reflexivity.
    + split; [apply Hp|]. apply coo_linear_jacobian; [cbn [nnz rows cols vals]; auto|].
      intros x' o Ho. cbn [nnz rows cols vals]. apply rsum_ext. intros k Hk.
      destruct (Nat.eqb (row_of sh [a] k) o); [|reflexivity]. cbn [np_flatten dat]. lra.
  - intros x0 x1. eexists (Sparse (Coo (size sh) (row_of sh [a]) (fun k => k) _)). split.
    + rewrite sparse_partials_vec with (n := size sh); reflexivity.
    + split; [apply Hp|]. apply coo_linear_jacobian; [cbn [nnz rows cols vals]; auto|].
      intros x' o Ho. cbn [nnz rows cols vals]. apply rsum_ext. intros k Hk.
      destruct (Nat.eqb (row_of sh [a] k) o); [|reflexivity]. cbn [np_flatten dat]. lra.
Qed.

(** ---- outer ---- *)

Lemma outer_like : forall s0 s1 s' n0 n1 f d0 d1,
  size s0 = n0 -> size s1 = n1 -> s' = s0 ++ s1 ->
  (forall x0 x1, exists y, f (Nd s0 x0) (Nd s1 x1) = Some y /\ shp y = s' /\
     forall o, (o < n0 * n1)%nat -> dat y o = x0 (o / n1)%nat * x1 (o mod n1)%nat) ->
  (forall x0 x1, d0 (Nd s0 x0) (Nd s1 x1) = outer_partials0 n0 n1 (Nd [n1] x1)) ->
  (forall x0 x1, d1 (Nd s0 x0) (Nd s1 x1) = outer_partials1 n0 n1 (Nd [n0] x0)) ->
  correct (comp2 s0 s1 s' f d0 d1) outer_meaning.
Proof.
  intros s0 s1 s' n0 n1 f d0 d1 H0 H1 -> Hf Hd0 Hd1.
  assert (Hs : size (s0 ++ s1) = (n0 * n1)%nat) by (rewrite size_app; now subst).
  assert (Hnz : forall o, (o < n0 * n1)%nat -> n1 <> 0%nat) by (intros; nia).
  apply correct2 with (F := fun x0 x1 o => x0 (o / n1)%nat * x1 (o mod n1)%nat).
  - intros x0 x1. destruct (Hf x0 x1) as (y & E & Hsy & Hd). exists y. splits; auto.
    + exists (Nd s0 x0), (Nd s1 x1). splits; auto.
      intros i j Hi Hj. unfold get. rewrite Hsy. cbn [shp dat].
      rewrite ravel_app by (now apply inb_length).
      pose proof (ravel_lt _ _ Hi) as Li. pose proof (ravel_lt _ _ Hj) as Lj.
      cbn [shp] in Li, Lj. rewrite H0 in Li. rewrite H1 in Lj. rewrite H1, Hd.
      * now rewrite div_block, mod_block.
      * assert ((ravel s0 i + 1) * n1 <= n0 * n1)%nat by (apply Nat.mul_le_mono_r; lia). nia.
    + intros o Ho. apply Hd. now rewrite <- Hs.
  - intros x0 x1. rewrite Hd0. eexists (Sparse (Coo (n0 * n1) _ _ _)). split.
    + unfold outer_partials0. rewrite sparse_partials_vec with (n := (n0 * n1)%nat).
      * reflexivity.
      * reflexivity.
      * cbn [np_repeat np_arange shp size]. f_equal. lia.
      * cbn [np_tile shp tile_last]. f_equal. lia.
    + cbn [exact_jac]. rewrite Hs, H0.
      apply exact_sparse_rows with (n := 1%nat) (C := fun o _ => (o / n1)%nat)
                                   (V := fun o _ => x1 (o mod n1)%nat).
      * cbn [nnz]. lia.
      * intros b j Hb Hj. assert (j = 0)%nat by lia. subst j.
        replace (b * 1 + 0)%nat with b by lia.
        cbn [rows cols vals np_arange np_repeat np_tile dat shp last_extent last].
        splits; try reflexivity.
        rewrite (Nat.div_small b), (Nat.mod_small b (n1 * n0)) by lia. f_equal.
      * intros b j Hb Hj. apply Nat.div_lt_upper_bound; [now apply (Hnz b)|lia].
      * intros. lia.
      * intros x' b Hb. cbn [rsum]. lra.
  - intros x0 x1. rewrite Hd1. eexists (Sparse (Coo (n0 * n1) _ _ _)). split.
    + unfold outer_partials1. rewrite sparse_partials_vec with (n := (n0 * n1)%nat).
      * reflexivity.
      * reflexivity.
      * cbn [np_tile np_arange shp tile_last]. f_equal. lia.
      * cbn [np_repeat shp size]. f_equal. lia.
    + cbn [exact_jac]. rewrite Hs, H1.
      apply exact_sparse_rows with (n := 1%nat) (C := fun o _ => (o mod n1)%nat)
                                   (V := fun o _ => x0 (o / n1)%nat).
      * cbn [nnz]. lia.
      * intros b j Hb Hj. assert (j = 0)%nat by lia. subst j.
        replace (b * 1 + 0)%nat with b by lia.
        cbn [rows cols vals np_arange np_repeat np_tile dat shp last_extent last].
        splits; try reflexivity.
        rewrite (Nat.div_small b), (Nat.mod_small b (n1 * n0)) by lia. reflexivity.
      * intros b j Hb Hj. apply Nat.mod_upper_bound. now apply (Hnz b).
      * intros. lia.
      * intros x' b Hb. cbn [rsum]. lra.
Qed.

Lemma firstn_skipn_ravel : forall s0 s1 o, (o < size (s0 ++ s1))%nat ->
  let idx := unravel (s0 ++ s1) o in
  inb s0 (firstn (length s0) idx) /\ inb s1 (skipn (length s0) idx) /\
  ravel s0 (firstn (length s0) idx) = (o / size s1)%nat /\
  ravel s1 (skipn (length s0) idx) = (o mod size s1)%nat.
Proof.
  intros s0 s1 o Ho idx.
  pose proof (unravel_inb _ _ Ho) as Hi. fold idx in Hi.
  assert (Hl : length (firstn (length s0) idx) = length s0).
  { rewrite firstn_length. unfold idx. rewrite unravel_length, app_length. lia. }
  rewrite <- (firstn_skipn (length s0) idx) in Hi.
  apply inb_app in Hi; [|exact Hl]. destruct Hi as [Hi Hj].
  pose proof (ravel_unravel _ _ Ho) as E. fold idx in E.
  rewrite <- (firstn_skipn (length s0) idx) in E.
  rewrite ravel_app in E by exact Hl.
  pose proof (ravel_lt _ _ Hj).
  splits; auto.
  - rewrite <- E. now rewrite div_block.
  - rewrite <- E. now rewrite mod_block.
Qed.

Lemma outer_correct : forall s0 s1, (length s0 + length s1 <= 26)%nat ->
  c_ins (outer_comp s0 s1) = [s0; s1] /\ c_out (outer_comp s0 s1) = s0 ++ s1 /\
  correct (outer_comp s0 s1) outer_meaning.
Proof.
  intros s0 s1 Hr.
  assert (HV : forall n0 n1, correct
      (comp2 [n0] [n1] [n0; n1] (fun a b => Some (np_outer a b))
            (fun _ b => outer_partials0 n0 n1 b) (fun a _ => outer_partials1 n0 n1 a)) outer_meaning).
  { intros n0 n1. apply outer_like with (n0 := n0) (n1 := n1).
    - cbn; lia.
    - cbn; lia.
    - reflexivity.
    - intros x0 x1. eexists. split; [reflexivity|]. split.
      + cbn [np_outer of_fun shp size]. now rewrite !Nat.mul_1_r.
      + intros o Ho. cbn [np_outer of_fun shp dat].
        cbn [unravel size nth]. rewrite !Nat.mul_1_r, Nat.div_1_r. reflexivity.
    - reflexivity.
    - reflexivity. }
  assert (HT : correct
      (comp2 s0 s1 (s0 ++ s1)
            (fun a b =>
               if Nat.eqb (length (letters26 0 (length s0))) (length s0) &&
                  Nat.eqb (length (letters26 (length s0) (length s0 + length s1))) (length s1)
               then Some (r_einsum [(letters26 0 (length s0), a);
                                    (letters26 (length s0) (length s0 + length s1), b)]
                                   (letters26 0 (length s0 + length s1)))
               else None)
            (fun _ b => outer_partials0 (size s0) (size s1) (np_flatten b))
            (fun a _ => outer_partials1 (size s0) (size s1) (np_flatten a))) outer_meaning).
  { apply outer_like with (n0 := size s0) (n1 := size s1); try reflexivity.
    intros x0 x1.
    assert (L1 : letters26 0 (length s0) = seq 0 (length s0)).
    { unfold letters26. rewrite !Nat.min_l by lia. f_equal. lia. }
    assert (L2 : letters26 (length s0) (length s0 + length s1) = seq (length s0) (length s1)).
    { unfold letters26. rewrite !Nat.min_l by lia. f_equal. lia. }
    assert (L3 : letters26 0 (length s0 + length s1) = seq 0 (length s0 + length s1)).
    { unfold letters26. rewrite !Nat.min_l by lia. f_equal. lia. }
    rewrite L1, L2, L3, !seq_length, !Nat.eqb_refl. cbn [andb].
    set (ops := [(seq 0 (length s0), Nd s0 x0); (seq (length s0) (length s1), Nd s1 x1)]).
    assert (Hdim : map (dim_of ops) (seq 0 (length s0 + length s1)) = s0 ++ s1).
    { rewrite seq_app, map_app. cbn [Nat.add]. f_equal.
      - transitivity (map (env_of (seq 0 (length s0)) s0) (seq 0 (length s0)));
          [|apply map_env_of; [apply seq_NoDup|now rewrite seq_length]].
        apply map_ext_in. intros l Hl. unfold ops. cbn [dim_of].
        apply mem_In in Hl. rewrite Hl. reflexivity.
      - transitivity (map (env_of (seq (length s0) (length s1)) s1) (seq (length s0) (length s1)));
          [|apply map_env_of; [apply seq_NoDup|now rewrite seq_length]].
        apply map_ext_in. intros l Hl. unfold ops. cbn [dim_of].
        assert (Hn : mem l (seq 0 (length s0)) = false).
        { apply mem_not_In. intros C. apply in_seq in C. apply in_seq in Hl. lia. }
        rewrite Hn. apply mem_In in Hl. rewrite Hl. reflexivity. }
    eexists. split; [reflexivity|]. split.
    - unfold r_einsum, np_einsum. cbn [of_fun shp]. exact Hdim.
    - intros o Ho. rewrite <- size_app in Ho.
      pose proof (firstn_skipn_ravel s0 s1 o Ho) as (Hi & Hj & Ei & Ej).
      set (idx := unravel (s0 ++ s1) o) in *.
      assert (Hin : inb (s0 ++ s1) idx) by now apply unravel_inb.
      transitivity (get (r_einsum ops (seq 0 (length s0 + length s1))) idx).
      + unfold get. f_equal. unfold r_einsum, np_einsum. cbn [of_fun shp]. rewrite Hdim.
        unfold idx. now rewrite ravel_unravel.
      + unfold r_einsum. rewrite einsum_plain.
        * unfold term, ops. cbn [map fst snd gprod].
          rewrite Rmult_1_r.
          replace (map (env_of (seq 0 (length s0 + length s1)) idx) (seq 0 (length s0)))
            with (firstn (length s0) idx).
          -- replace (map (env_of (seq 0 (length s0 + length s1)) idx)
                          (seq (length s0) (length s1)))
               with (skipn (length s0) idx).
             ++ unfold get. cbn [shp dat]. now rewrite Ei, Ej.
             ++ rewrite <- (map_env_of (seq 0 (length s0 + length s1)) idx) at 1;
                  [|apply seq_NoDup|rewrite seq_length, (inb_length _ _ Hin), app_length; reflexivity].
                rewrite seq_app at 2. rewrite map_app, skipn_app.
                rewrite map_length, seq_length, Nat.sub_diag, skipn_O.
                rewrite skipn_all2 by (rewrite map_length, seq_length; lia). reflexivity.
          -- rewrite <- (map_env_of (seq 0 (length s0 + length s1)) idx) at 1;
               [|apply seq_NoDup|rewrite seq_length, (inb_length _ _ Hin), app_length; reflexivity].
             rewrite seq_app at 2. rewrite map_app, firstn_app.
             rewrite map_length, seq_length, Nat.sub_diag, firstn_O, app_nil_r.
             apply firstn_all2. rewrite map_length, seq_length. lia.
        * intros. lra.
        * apply seq_NoDup.
        * intros l Hl. unfold ops, in_labels in Hl. cbn [map fst concat] in Hl.
          rewrite app_nil_r in Hl. apply in_app_or in Hl. apply in_seq.
          destruct Hl as [Hl|Hl]; apply in_seq in Hl; lia.
        * now rewrite Hdim. }
  destruct s0 as [|n0 [|n0' s0]]; [split; [reflexivity|split; [reflexivity|exact HT]]| |
                                   split; [reflexivity|split; [reflexivity|exact HT]]].
  destruct s1 as [|n1 [|n1' s1]]; [split; [reflexivity|split; [reflexivity|exact HT]]| |
                                   split; [reflexivity|split; [reflexivity|exact HT]]].
  split; [reflexivity|split; [reflexivity|apply HV]].
Qed.

(** Concrete cases. *)
Local Open Scope nat_scope.
Example matvec_instance : exists c y, matvec_comp [2; 3] [3] = Some c /\
  c_compute c [Nd [2; 3] (fun k => INR k); Nd [3] (fun _ => 1%R)] = Some y /\
  get y [1] = 12%R.
Proof.
  eexists. eexists. splits; [reflexivity|cbn; reflexivity|].
  cbn. lra.
Qed.
Example dot_instance : (2 <= length [2; 3])%nat /\ axis_named (length [2; 3]) (-1)%Z 1 /\
  nth 1 [2; 3] 0 = 3.
Proof. splits; try reflexivity; unfold axis_named; cbn; lia. Qed.
Example outer_instance :
  option_map (fun y => get y [1; 0; 2]) (c_compute (outer_comp [2; 2] [3])
    [Nd [2; 2] (fun k => INR k); Nd [3] (fun k => INR k)]) = Some 4%R.
Proof. cbn. f_equal. lra. Qed.
