(** C116: matvec and matmat of operands with more than two axes. *)
From Coq Require Import Reals Lra Lia Arith List Bool.
From Verif Require Import PyBase RSum NdArray Component JacSpec CompReorder ReorderProofs CompReduce
  ReduceProofs CompProduct SpecProduct ProductProofs MatStack SpecMatStack.
Import ListNotations.
Local Open Scope nat_scope.

Lemma declarable_spec : forall r c, declarable r c = true <-> shp r = shp c.
Proof. intros r c. unfold declarable. destruct (list_eq_dec _ _ _); split; congruence. Qed.

Lemma size_one_all : forall s, size s = 1 <-> Forall (fun k => k = 1) s.
Proof.
  induction s as [|k s IH]; cbn [size].
  - split; [constructor|reflexivity].
  - split.
    + intros H. assert (k = 1 /\ size s = 1) as [-> H1] by (apply Nat.eq_mul_1 in H; exact H).
      constructor; [reflexivity|]. now apply IH.
    + intros H. inversion H as [|? ? -> Hs]; subst. apply IH in Hs. lia.
Qed.

Lemma last_extent_all : forall s, Forall (fun k => k = 1) s -> last_extent s = 1.
Proof.
  intros s H. unfold last_extent. induction H as [|k s -> Hs IH]; [reflexivity|].
  destruct s; [reflexivity|exact IH].
Qed.

(** the last extent of the first operand is its second exactly for matrices and columns *)
Lemma last_is_second : forall m n rest, size rest = 1 ->
  (last_extent (m :: n :: rest) = n <-> matrix_or_column n rest).
Proof.
  intros m n rest H. unfold matrix_or_column. apply size_one_all in H.
  destruct rest as [|k rest]; [cbn; tauto|].
  assert (E : last_extent (m :: n :: k :: rest) = 1).
  { change (last_extent (k :: rest) = 1). now apply last_extent_all. }
  rewrite E. split.
  - intros <-. right. now split.
  - intros [F|[-> _]]; [discriminate F|reflexivity].
Qed.

Lemma split_last : forall s, s <> [] -> s = removelast s ++ [last_extent s].
Proof. intros s H. now apply app_removelast_last. Qed.

Lemma ravel_last : forall s o j, s <> [] -> o < size (removelast s) ->
  ravel s (unravel (removelast s) o ++ [j]) = o * last_extent s + j.
Proof.
  intros s o j H Ho. rewrite (split_last s H) at 1.
  rewrite ravel_app by apply unravel_length. rewrite ravel_unravel by exact Ho.
  cbn [size ravel]. nia.
Qed.

Lemma size_removelast : forall s m n, s <> [] -> last_extent s = n -> 0 < n -> size s = m * n ->
  size (removelast s) = m.
Proof.
  intros s m n H Hl Hn Hs. rewrite (split_last s H), size_app, Hl in Hs. cbn [size] in Hs. nia.
Qed.

Lemma size_tile_last : forall s p, s <> [] -> size (tile_last s p) = size s * p.
Proof.
  induction s as [|a s IH]; intros p H; [congruence|].
  destruct s as [|b s]; [cbn; lia|].
  change (a * size (tile_last (b :: s) p) = a * size (b :: s) * p).
  rewrite IH by discriminate. lia.
Qed.

Lemma entry_dat : forall m n rest x i j, size rest = 1 ->
  entry (Nd (m :: n :: rest) x) rest i j = x (i * n + j).
Proof.
  intros m n rest x i j H. unfold entry, get. cbn [shp dat]. f_equal. cbn [ravel size].
  assert (Z : ravel rest (map (fun _ => 0) rest) = 0).
  { clear. induction rest as [|k r IH]; cbn [map ravel]; [reflexivity|]. rewrite IH. lia. }
  rewrite Z, H. lia.
Qed.

Local Open Scope R_scope.

(** the vector product of any such operand *)
Lemma stack_vec_dat : forall s m n x0 x1, s <> [] -> last_extent s = n -> (0 < n)%nat ->
  size s = (m * n)%nat ->
  exists y, np_stack_vec (Nd s x0) (Nd [n] x1) = Some y /\ size (shp y) = m /\
    forall o, (o < m)%nat -> dat y o = rsum n (fun j => x0 (o * n + j)%nat * x1 j).
Proof.
  intros s m n x0 x1 H Hl Hn Hs. unfold np_stack_vec. cbn [shp]. rewrite Hl.
  replace (size [n]) with n by (cbn; lia). rewrite Nat.eqb_refl.
  pose proof (size_removelast s m n H Hl Hn Hs) as Hm.
  eexists. split; [reflexivity|]. split; [exact Hm|].
  intros o Ho. cbn [of_fun dat]. apply rsum_ext. intros j Hj. unfold get. cbn [shp dat].
  rewrite ravel_last by (auto; lia). rewrite Hl. cbn [ravel size]. f_equal. f_equal. lia.
Qed.

Lemma unravel_snoc : forall s p o k, (o < size s)%nat -> (k < p)%nat ->
  unravel (s ++ [p]) (o * p + k) = unravel s o ++ [k].
Proof.
  intros s p o k Ho Hk.
  replace (o * p + k)%nat with (ravel (s ++ [p]) (unravel s o ++ [k])).
  - apply unravel_ravel. apply inb_app; [apply unravel_length|].
    split; [now apply unravel_inb|]. cbn. tauto.
  - rewrite ravel_app by apply unravel_length. rewrite ravel_unravel by exact Ho.
    cbn [size ravel]. nia.
Qed.

Lemma stack_mat_dat : forall s m n p x0 x1, s <> [] -> last_extent s = n -> (0 < n)%nat ->
  size s = (m * n)%nat ->
  exists y, np_stack_mat (Nd s x0) (Nd [n; p] x1) = Some y /\ size (shp y) = (m * p)%nat /\
    forall i k, (i < m)%nat -> (k < p)%nat ->
      dat y (i * p + k) = rsum n (fun j => x0 (i * n + j)%nat * x1 (j * p + k)%nat).
Proof.
  intros s m n p x0 x1 H Hl Hn Hs. unfold np_stack_mat. cbn [shp]. rewrite Hl, Nat.eqb_refl.
  pose proof (size_removelast s m n H Hl Hn Hs) as Hm.
  eexists. split; [reflexivity|]. split.
  - cbn [of_fun shp]. rewrite size_app, Hm. cbn [size]. lia.
  - intros i k Hi Hk. cbn [of_fun dat]. rewrite unravel_snoc by lia.
    rewrite removelast_last, last_last. apply rsum_ext. intros j Hj. unfold get. cbn [shp dat].
    rewrite ravel_last by (auto; lia). rewrite Hl. cbn [ravel size]. f_equal. f_equal. lia.
Qed.

Lemma assigned_same : forall s y, size (shp y) = size s -> assigned s (Some y) = Some (np_reshape y s).
Proof. intros s y E. unfold assigned, assign_output. rewrite E. now rewrite Nat.eqb_refl. Qed.

(** ---- matvec ---- *)

Lemma matvec_returns : forall s0 s1,
  matvec_stack s0 s1 <> CallRaises <-> exists m n rest, s0 = m :: n :: rest /\ s1 = [n].
Proof.
  intros s0 s1. split.
  - destruct s0 as [|m [|n rest]]; [cbn; congruence..|].
    destruct s1 as [|n' [|k s1]]; [cbn; congruence| |].
    + cbn [matvec_stack length]. destruct (Nat.eqb_spec n n') as [->|]; [|cbn; congruence].
      intros _. now exists m, n', rest.
    + cbn [matvec_stack length]. rewrite andb_comm. cbn. congruence.
  - intros (m & n & rest & -> & ->). cbn [matvec_stack length]. rewrite Nat.eqb_refl. cbn [andb Nat.eqb].
    now destruct (declarable _ _).
Qed.

Lemma matvec_set_up : forall m n rest, (0 < m)%nat -> (0 < n)%nat ->
  ((exists c, matvec_stack (m :: n :: rest) [n] = Ready [m] c) <-> size rest = 1%nat) /\
  (size rest <> 1%nat -> matvec_stack (m :: n :: rest) [n] = SetupRaises [m]).
Proof.
  intros m n rest Hm Hn. cbn [matvec_stack length]. rewrite Nat.eqb_refl. cbn [andb Nat.eqb].
  match goal with |- context [declarable ?r ?c] =>
    assert (D : declarable r c = true <-> size rest = 1%nat);
    [rewrite declarable_spec; cbn [np_repeat np_arange shp size]; rewrite Nat.mul_1_r |
     destruct (declarable r c)] end.
  - split.
    + intros E. injection E as E. nia.
    + intros ->. f_equal. lia.
  - split; [split; [intros _; now apply D|eauto]|]. intros H. destruct H. now apply D.
  - split; [split; [intros [c E]; discriminate E|intros H; apply D in H; discriminate H]|reflexivity].
Qed.

Lemma matvec_works : forall m n rest c, (0 < n)%nat -> size rest = 1%nat ->
  matvec_stack (m :: n :: rest) [n] = Ready [m] c ->
  (matrix_or_column n rest ->
     c_ins c = [m :: n :: rest; [n]] /\ c_out c = [m] /\ correct c (stack_vec_meaning m n rest)) /\
  (~ matrix_or_column n rest -> forall x0 x1,
     c_compute c [Nd (m :: n :: rest) x0; Nd [n] x1] = None).
Proof.
  intros m n rest c Hn Hr. cbn [matvec_stack length]. rewrite Nat.eqb_refl. cbn [andb Nat.eqb].
  destruct (declarable _ _); [|discriminate]. intros E. injection E as <-.
  split.
  - intros M. apply (last_is_second m n rest Hr) in M. split; [reflexivity|]. split; [reflexivity|].
    assert (Hs : size (m :: n :: rest) = (m * n)%nat) by (cbn [size]; rewrite Hr; lia).
    assert (Ho : size [m] = m) by (cbn; lia).
    assert (Hne : m :: n :: rest <> []) by discriminate.
    apply correct2 with (F := fun a b o => rsum n (fun j => a (o * n + j)%nat * b j)).
    + intros x0 x1. destruct (stack_vec_dat _ m n x0 x1 Hne M Hn Hs) as (y & Ey & Hy & Dy).
      exists (np_reshape y [m]). splits.
      * rewrite Ey. apply assigned_same. lia.
      * reflexivity.
      * exists (Nd (m :: n :: rest) x0), (Nd [n] x1). splits; try reflexivity.
        intros i Hi. unfold get at 1. cbn [np_reshape shp dat ravel size].
        rewrite Nat.mul_1_r, Nat.add_0_r, Dy by exact Hi.
        apply rsum_ext. intros j Hj. rewrite entry_dat by exact Hr.
        unfold get. cbn [shp dat ravel size]. f_equal. f_equal. lia.
      * intros o Hlt. cbn [np_reshape dat]. apply Dy. lia.
    + intros x0 x1.
      exists (Sparse (Coo (m * n) (dat (np_repeat (np_arange m) n)) (fun k => k)
                          (dat (np_tile (Nd [n] x1) m)))).
      split.
      * rewrite sparse_partials_vec with (n := (m * n)%nat);
          cbn; try reflexivity; f_equal; rewrite ?Hr; lia.
      * cbn [exact_jac]. rewrite Ho, Hs.
        apply exact_sparse_rows with (n := n) (C := fun b j => (b * n + j)%nat) (V := fun b j => x1 j).
        -- reflexivity.
        -- intros b j Hb Hj. cbn [rows cols vals np_repeat np_arange dat np_tile last_extent shp last].
           splits; try reflexivity.
           ++ now apply div_block.
           ++ rewrite (Nat.div_small (b * n + j)), (Nat.mod_small (b * n + j)) by nia.
              rewrite mod_block by assumption. f_equal.
        -- intros b j Hb Hj. nia.
        -- intros. lia.
        -- intros x' b Hb. apply rsum_ext. intros. lra.
    + intros x0 x1. eexists. split; [reflexivity|]. cbn [exact_jac]. split.
      * cbn [shp]. rewrite Hs. cbn. lia.
      * apply dense_linear_jacobian. intros x' o Hlt. cbn [size]. rewrite Nat.mul_1_r.
        apply rsum_ext. intros j Hj. reflexivity.
  - intros M x0 x1. cbn [comp2 c_compute]. unfold np_stack_vec. cbn [shp].
    replace (size [n]) with n by (cbn; lia).
    destruct (Nat.eqb_spec (last_extent (m :: n :: rest)) n) as [L|L]; [|reflexivity].
    destruct M. now apply (last_is_second m).
Qed.

(** ---- matmat ---- *)

Lemma matmat_core_not_raised : forall s0 m n p d, matmat_stack_core s0 m n p d <> CallRaises.
Proof. intros. unfold matmat_stack_core. now destruct (andb _ _). Qed.

Lemma matmat_returns : forall s0 s1,
  matmat_stack s0 s1 <> CallRaises <->
  exists m n rest, s0 = m :: n :: rest /\ (s1 = [n] \/ exists p, s1 = [n; p]).
Proof.
  intros s0 s1. split.
  - destruct s0 as [|m [|n rest]]; [cbn; congruence..|].
    destruct s1 as [|n' [|p [|q s1]]]; [cbn; congruence| | |cbn; congruence];
      cbn [matmat_stack]; destruct (Nat.eqb_spec n n') as [->|]; try congruence;
      intros _; exists m, n', rest; eauto.
  - intros (m & n & rest & -> & [->|[p ->]]); cbn [matmat_stack]; rewrite Nat.eqb_refl;
      apply matmat_core_not_raised.
Qed.

Lemma matmat_core_set_up : forall m n p rest d, (0 < m)%nat -> (0 < n)%nat -> (0 < p)%nat ->
  ((exists c, matmat_stack_core (m :: n :: rest) m n p d = Ready d c) <-> size rest = 1%nat) /\
  (size rest <> 1%nat -> matmat_stack_core (m :: n :: rest) m n p d = SetupRaises d).
Proof.
  intros m n p rest d Hm Hn Hp. unfold matmat_stack_core.
  pose proof (size_matmat_out m p) as Ho.
  match goal with |- context [(declarable ?r ?c0 && declarable ?r' ?c1)%bool] =>
    assert (D : (declarable r c0 && declarable r' c1)%bool = true <-> size rest = 1%nat);
    [rewrite andb_true_iff, !declarable_spec; cbn [np_repeat np_arange np_flatten np_tile np_reshape shp];
     rewrite size_tile_last by discriminate; cbn [np_transpose of_fun shp rev app];
     replace (size [size (matmat_out_shape m p)]) with (m * p)%nat by (cbn [size]; lia);
     cbn [size tile_last] |
     destruct (declarable r c0 && declarable r' c1)%bool] end.
  - split.
    + intros [E _]. injection E as E.
      assert (P : (m * p * n <> 0)%nat) by (apply Nat.neq_mul_0; split; [apply Nat.neq_mul_0|]; lia).
      apply (proj1 (Nat.mul_cancel_l _ _ _ P)). lia.
    + intros ->. split; f_equal; cbn [np_reshape shp rev app size]; nia.
  - split; [split; [intros _; now apply D|eauto]|]. intros H. destruct H. now apply D.
  - split; [split; [intros [c E]; discriminate E|intros H; apply D in H; discriminate H]|reflexivity].
Qed.

Lemma matmat_core_works : forall m n p rest d c, (0 < n)%nat -> size rest = 1%nat ->
  matmat_stack_core (m :: n :: rest) m n p d = Ready d c ->
  (matrix_or_column n rest ->
     c_ins c = [m :: n :: rest; [n; p]] /\ correct c (stack_mat_meaning m n p rest)) /\
  (~ matrix_or_column n rest -> forall x0 x1,
     c_compute c [Nd (m :: n :: rest) x0; Nd [n; p] x1] = None).
Proof.
  intros m n p rest d c Hn Hr. unfold matmat_stack_core.
  destruct (_ && _)%bool; [|discriminate]. intros E. injection E as <-.
  pose proof (size_matmat_out m p) as Ho.
  split.
  - intros M. apply (last_is_second m n rest Hr) in M. split; [reflexivity|].
    assert (Hs : size (m :: n :: rest) = (m * n)%nat) by (cbn [size]; rewrite Hr; lia).
    assert (Hne : m :: n :: rest <> []) by discriminate.
    assert (Hrow : forall o j, (j < n)%nat ->
               dat (np_repeat (np_arange (size (matmat_out_shape m p))) n) (o * n + j) = o).
    { intros o j Hj. cbn [np_repeat np_arange dat]. now apply div_block. }
    assert (T : forall (A : Type) (x : nat -> A) i k j, (i < m)%nat -> (k < p)%nat -> (j < n)%nat ->
      dat (np_tile (Nd (m :: n :: rest) x) p) ((i * p + k) * n + j)%nat = x (i * n + j)%nat).
    { intros A x i k j Hi Hk Hj. rewrite <- (tile_matrix A x m n p i k j Hi Hk Hj).
      cbn [np_tile dat]. cbn [shp]. now rewrite M. }
    apply correct2 with (F := fun a b o =>
       rsum n (fun j => a ((o / p) * n + j)%nat * b (j * p + o mod p)%nat)).
    + intros x0 x1. destruct (stack_mat_dat _ m n p x0 x1 Hne M Hn Hs) as (y & Ey & Hy & Dy).
      exists (np_reshape y (matmat_out_shape m p)). splits.
      * rewrite Ey. apply assigned_same. lia.
      * reflexivity.
      * exists (Nd (m :: n :: rest) x0), (Nd [n; p] x1). splits; try reflexivity.
        intros i k Hi Hk. cbn [np_reshape dat]. rewrite Dy by assumption.
        apply rsum_ext. intros j Hj. rewrite entry_dat by exact Hr.
        unfold get. cbn [shp dat ravel size]. f_equal. f_equal. lia.
      * intros o Hlt. cbn [np_reshape dat]. rewrite Ho in Hlt.
        destruct (split_out m p o Hlt) as (i & k & Hi & Hk & ->).
        rewrite Dy, div_block, mod_block by assumption. reflexivity.
    + intros x0 x1. eexists (Sparse (Coo (m * p * n) _ _ _)). split.
      * rewrite sparse_partials_vec with (n := (m * p * n)%nat).
        -- reflexivity.
        -- cbn [np_repeat np_arange shp]. f_equal. cbn [size]. rewrite Ho. lia.
        -- cbn [np_flatten np_tile np_reshape shp]. rewrite size_tile_last by exact Hne.
           rewrite Hs. f_equal. nia.
        -- cbn [np_tile np_flatten np_transpose of_fun shp rev app tile_last size]. f_equal. nia.
      * cbn [exact_jac]. rewrite Ho, Hs.
        apply exact_sparse_rows with (n := n)
          (C := fun o j => ((o / p) * n + j)%nat)
          (V := fun o j => x1 (j * p + o mod p)%nat).
        -- reflexivity.
        -- intros b j Hb Hj. cbn [rows cols vals].
           destruct (split_out m p b Hb) as (i & k & Hi & Hk & ->).
           rewrite div_block, mod_block by assumption.
           splits.
           ++ now apply Hrow.
           ++ exact (T nat (fun k => k) i k j Hi Hk Hj).
           ++ now apply tile_transposed.
        -- intros b j Hb Hj. destruct (split_out m p b Hb) as (i & k & Hi & Hk & ->).
           rewrite div_block by assumption. nia.
        -- intros. lia.
        -- intros x' b Hb. apply rsum_ext. intros. lra.
    + intros x0 x1. eexists (Sparse (Coo (m * p * n) _ _ _)). split.
      * rewrite sparse_partials_vec with (n := (m * p * n)%nat).
        -- reflexivity.
        -- cbn [np_repeat np_arange shp]. f_equal. cbn [size]. rewrite Ho. lia.
        -- cbn [np_tile np_flatten np_transpose of_fun np_reshape shp rev app tile_last size]. f_equal. nia.
        -- cbn [np_flatten np_tile shp]. rewrite size_tile_last by exact Hne. rewrite Hs. f_equal. nia.
      * cbn [exact_jac]. rewrite Ho.
        apply exact_sparse_rows with (n := n)
          (C := fun o j => (j * p + o mod p)%nat)
          (V := fun o j => x0 ((o / p) * n + j)%nat).
        -- reflexivity.
        -- intros b j Hb Hj. cbn [rows cols vals].
           destruct (split_out m p b Hb) as (i & k & Hi & Hk & ->).
           rewrite div_block, mod_block by assumption.
           splits.
           ++ now apply Hrow.
           ++ exact (tile_transposed nat (fun k => k) m n p i k j Hi Hk Hj).
           ++ exact (T R x0 i k j Hi Hk Hj).
        -- intros b j Hb Hj. destruct (split_out m p b Hb) as (i & k & Hi & Hk & ->).
           rewrite mod_block by assumption. cbn [size]. nia.
        -- intros b j j' Hb Hj Hj' E. destruct (split_out m p b Hb) as (i & k & Hi & Hk & ->). nia.
        -- intros x' b Hb. reflexivity.
  - intros M x0 x1. cbn [comp2 c_compute]. unfold np_stack_mat. cbn [shp].
    destruct (Nat.eqb_spec (last_extent (m :: n :: rest)) n) as [L|L]; [|reflexivity].
    destruct M. now apply (last_is_second m).
Qed.

(** Both of matmat: the second operand a matrix with [p] columns, or a vector ([p] = 1). *)
Lemma matmat_set_up : forall m n p rest s1, (0 < m)%nat -> (0 < n)%nat -> (0 < p)%nat ->
  s1 = [n; p] \/ (s1 = [n] /\ p = 1%nat) ->
  ((exists c, matmat_stack (m :: n :: rest) s1 = Ready [m; p] c) <-> size rest = 1%nat) /\
  (size rest <> 1%nat -> matmat_stack (m :: n :: rest) s1 = SetupRaises [m; p]).
Proof.
  intros m n p rest s1 Hm Hn Hp [->|[-> ->]]; cbn [matmat_stack]; rewrite Nat.eqb_refl;
    now apply matmat_core_set_up.
Qed.

Lemma matmat_works : forall m n p rest s1 c, (0 < n)%nat -> size rest = 1%nat ->
  s1 = [n; p] \/ (s1 = [n] /\ p = 1%nat) ->
  matmat_stack (m :: n :: rest) s1 = Ready [m; p] c ->
  (matrix_or_column n rest ->
     c_ins c = [m :: n :: rest; [n; p]] /\ correct c (stack_mat_meaning m n p rest)) /\
  (~ matrix_or_column n rest -> forall x0 x1,
     c_compute c [Nd (m :: n :: rest) x0; Nd [n; p] x1] = None).
Proof.
  intros m n p rest s1 c Hn Hr [->|[-> ->]]; cbn [matmat_stack]; rewrite Nat.eqb_refl;
    now apply matmat_core_works.
Qed.

(** accepted, and never computed: three axes of extents (2,3,1) *)
Lemma stack_refuted : ~ (forall s0 s1, matvec_stack s0 s1 <> CallRaises ->
  exists d c, matvec_stack s0 s1 = Ready d c /\
    forall x0 x1, c_compute c [Nd s0 x0; Nd s1 x1] <> None).
Proof.
  intros H. destruct (H [2; 3; 1]%nat [3]%nat) as (d & c & E & Hc).
  - apply matvec_returns. now exists 2%nat, 3%nat, [1%nat].
  - assert (d = [2%nat]) as -> by (cbn in E; now injection E).
    destruct (matvec_works 2 3 [1%nat] c ltac:(lia) eq_refl E) as [_ W].
    apply (Hc (fun _ => 0) (fun _ => 0)). apply W.
    intros [F|[F _]]; discriminate F.
Qed.

Local Open Scope nat_scope.

(** Concrete cases: a matrix, a column with two further axes, a stack that cannot
    be set up, one that cannot be computed. *)
Definition status (r : called) : nat :=
  match r with CallRaises => 0 | SetupRaises _ => 1 | Ready _ _ => 2 end.

Example stack_cases :
  status (matvec_stack [2; 3] [3]) = 2 /\ status (matvec_stack [2; 1; 1; 1] [1]) = 2 /\
  status (matvec_stack [2; 3; 4] [3]) = 1 /\ status (matvec_stack [2; 3; 1] [3]) = 2 /\
  status (matvec_stack [2; 3] [2]) = 0 /\ status (matmat_stack [2; 3; 2] [3; 4]) = 1 /\
  status (matmat_stack [2; 1; 1] [1; 4]) = 2 /\ status (matmat_stack [2; 3] [3]) = 2 /\
  status (matmat_stack [2; 3] [3; 4; 5]) = 0 /\
  matrix_or_column 1 [1; 1] /\ ~ matrix_or_column 3 [1].
Proof.
  repeat match goal with |- _ /\ _ => split end; try reflexivity.
  - right. split; [reflexivity|]. repeat constructor.
  - intros [F|[F _]]; discriminate F.
Qed.
