(** Proofs about the cross product. *)
From Coq Require Import Reals Lra Lia Arith List Bool ZArith.
From Verif Require Import PyBase RSum NdArray NdEinsum Component JacSpec CompReorder ReorderProofs
  CompReduce SpecReduce ReduceProofs CompProduct SpecProduct ProductProofs.
Import ListNotations.
Local Open Scope nat_scope.

Section Cross.
Variables (s : list nat) (axis : nat).
Hypothesis Hax : nth_error s axis = Some 3.
Let rest := delete [axis] s.
Let rank := length rest.
Hypothesis Hrank : rank <= 10.

Lemma ax_lt : axis < length s.
Proof. apply nth_error_Some. rewrite Hax. discriminate. Qed.

Lemma ax_nth : nth axis s 0 = 3.
Proof. now apply nth_error_nth. Qed.

Lemma s_split : insert_at axis 3 rest = s.
Proof. rewrite <- ax_nth. apply (insert_delete axis s 0), ax_lt. Qed.

Lemma ax_le : axis <= rank.
Proof.
  pose proof (insert_length axis 3 rest) as E. rewrite s_split in E.
  pose proof ax_lt. unfold rank. lia.
Qed.

Lemma subs_insert : cross_subs axis rank = insert_at axis 100 (seq 0 rank).
Proof.
  pose proof ax_le. unfold cross_subs, insert_at.
  replace rank with (axis + (rank - axis)) at 2 3 by lia.
  rewrite seq_app, firstn_app, skipn_app, seq_length, Nat.sub_diag, firstn_O, skipn_O.
  rewrite firstn_all2, skipn_all2 by (rewrite seq_length; lia).
  cbn [app Nat.add]. now rewrite app_nil_r.
Qed.

Lemma subs_NoDup : NoDup (cross_subs axis rank).
Proof.
  rewrite subs_insert. unfold insert_at. apply NoDup_Add with (a := 100) (l := seq 0 rank).
  - rewrite <- (firstn_skipn axis (seq 0 rank)) at 1. apply Add_app.
  - split; [apply seq_NoDup|]. rewrite in_seq. lia.
Qed.

Lemma out_labels : seq 0 axis ++ seq axis (rank - axis) = seq 0 rank.
Proof. pose proof ax_le. replace rank with (axis + (rank - axis)) at 2 by lia. now rewrite seq_app. Qed.

Let ops := [(cross_subs axis rank, get_array_indices s); ([101], np_full1 3 1)].

Lemma mem_subs : forall l, mem l (cross_subs axis rank) = true <-> l < rank \/ l = 100.
Proof.
  intros l. rewrite mem_In, subs_insert. unfold insert_at.
  rewrite in_app_iff. cbn [In].
  assert (E : In l (seq 0 rank) <-> In l (firstn axis (seq 0 rank)) \/ In l (skipn axis (seq 0 rank))).
  { rewrite <- in_app_iff, firstn_skipn. tauto. }
  rewrite in_seq in E.
  assert (E2 : l < rank <-> In l (firstn axis (seq 0 rank)) \/ In l (skipn axis (seq 0 rank)))
    by (rewrite <- E; lia).
  rewrite E2. intuition.
Qed.

Lemma dims_subs : map (env_of (cross_subs axis rank) s) (seq 0 rank) = rest /\
  env_of (cross_subs axis rank) s 100 = 3.
Proof.
  assert (E : map (env_of (cross_subs axis rank) s) (cross_subs axis rank) = s).
  { apply map_env_of; [apply subs_NoDup|].
    rewrite subs_insert, insert_length, seq_length. unfold rank.
    rewrite <- s_split at 1. now rewrite insert_length. }
  rewrite subs_insert, map_insert in E. rewrite <- subs_insert in E.
  set (g := env_of (cross_subs axis rank) s) in *.
  pose proof ax_le as Hle.
  assert (Hl : axis <= length (map g (seq 0 rank))) by (rewrite map_length, seq_length; exact Hle).
  split.
  - pose proof (delete_insert axis (g 100) (map g (seq 0 rank)) 0 Hl) as E1.
    cbn [Nat.add] in E1. rewrite E in E1. symmetry. exact E1.
  - pose proof (nth_insert axis (g 100) (map g (seq 0 rank)) Hl) as E1.
    rewrite E in E1. rewrite <- E1. apply ax_nth.
Qed.

Lemma dims_rest : map (dim_of ops) (seq 0 rank) = rest.
Proof.
  rewrite <- (proj1 dims_subs). apply map_ext_in. intros l Hl. apply in_seq in Hl.
  unfold ops. cbn [dim_of].
  assert (E : mem l (cross_subs axis rank) = true) by (apply mem_subs; lia).
  rewrite E. reflexivity.
Qed.

Lemma dim_y : dim_of ops 100 = 3.
Proof.
  unfold ops. cbn [dim_of].
  assert (E : mem 100 (cross_subs axis rank) = true) by (apply mem_subs; now right).
  rewrite E. exact (proj2 dims_subs).
Qed.

Lemma dim_z : dim_of ops 101 = 3.
Proof.
  unfold ops. cbn [dim_of].
  assert (E : mem 101 (cross_subs axis rank) = false).
  { destruct (mem 101 (cross_subs axis rank)) eqn:E; [|reflexivity].
    apply mem_subs in E. lia. }
  rewrite E. reflexivity.
Qed.

(** position (r, p, q) of the pattern *)
Lemma unravel_rpq : forall r p q, r < size rest -> p < 3 -> q < 3 ->
  ((r * 3 + p) * 3 + q < size (rest ++ [3; 3])) /\
  unravel (rest ++ [3; 3]) ((r * 3 + p) * 3 + q) = unravel rest r ++ [p; q].
Proof.
  intros r p q Hr Hp Hq.
  assert (Hin : inb (rest ++ [3; 3]) (unravel rest r ++ [p; q])).
  { apply inb_app; [now rewrite unravel_length|]. split; [now apply unravel_inb|].
    cbn. lia. }
  assert (E : ravel (rest ++ [3; 3]) (unravel rest r ++ [p; q]) = (r * 3 + p) * 3 + q).
  { rewrite ravel_app by now rewrite unravel_length. rewrite ravel_unravel by assumption.
    cbn [ravel size]. lia. }
  split.
  - rewrite <- E. now apply ravel_lt.
  - rewrite <- E. now apply unravel_ravel.
Qed.

Lemma pattern_shape : forall yz, yz = [100; 101] \/ yz = [101; 100] ->
  shp (cross_pattern s axis yz) = [size rest * 9].
Proof.
  intros yz Hyz. unfold cross_pattern. fold rest rank. fold ops.
  unfold np_flatten, n_einsum, np_einsum. cbn [of_fun shp]. f_equal.
  rewrite app_assoc, out_labels, map_app, dims_rest, size_app. f_equal.
  destruct Hyz as [-> | ->]; cbn [map]; rewrite dim_y, dim_z; reflexivity.
Qed.

(** the entry of the pattern at (r, p, q) *)
Lemma pattern_at : forall yz r p q, yz = [100; 101] \/ yz = [101; 100] ->
  r < size rest -> p < 3 -> q < 3 ->
  dat (cross_pattern s axis yz) ((r * 3 + p) * 3 + q) =
  ravel s (insert_at axis (if Nat.eqb (hd 0 yz) 100 then p else q) (unravel rest r)).
Proof.
  intros yz r p q Hyz Hr Hp Hq. unfold cross_pattern. fold rest rank. fold ops.
  cbn [np_flatten dat].
  destruct (unravel_rpq r p q Hr Hp Hq) as [Hlt Eu].
  set (k := (r * 3 + p) * 3 + q) in *.
  set (out := seq 0 axis ++ seq axis (rank - axis) ++ yz).
  assert (Eout : out = seq 0 rank ++ yz) by (unfold out; now rewrite app_assoc, out_labels).
  assert (Edim : map (dim_of ops) out = rest ++ [3; 3]).
  { rewrite Eout, map_app, dims_rest. f_equal.
    destruct Hyz as [-> | ->]; cbn [map]; rewrite dim_y, dim_z; reflexivity. }
  set (e := env_of out (unravel rest r ++ [p; q])).
  assert (Hlen : length (unravel rest r) = length (seq 0 rank))
    by (now rewrite unravel_length, seq_length).
  assert (He1 : map e (seq 0 rank) = unravel rest r).
  { transitivity (map (env_of (seq 0 rank) (unravel rest r)) (seq 0 rank)).
    - apply map_ext_in. intros l Hl. unfold e. rewrite Eout. now apply env_of_app_l.
    - apply map_env_of; [apply seq_NoDup|exact Hlen]. }
  assert (Hn100 : ~ In 100 (seq 0 rank)) by (rewrite in_seq; lia).
  assert (Hn101 : ~ In 101 (seq 0 rank)) by (rewrite in_seq; lia).
  assert (He2 : e 100 = if Nat.eqb (hd 0 yz) 100 then p else q).
  { unfold e. rewrite Eout, env_of_app_r by assumption.
    destruct Hyz as [-> | ->]; reflexivity. }
  transitivity (get (n_einsum ops out) (unravel rest r ++ [p; q])).
  - unfold get, n_einsum, np_einsum. cbn [of_fun shp dat]. rewrite Edim.
    rewrite <- Eu. now rewrite ravel_unravel.
  - unfold n_einsum. rewrite einsum_plain.
    + unfold term, ops. cbn [map fst snd gprod]. fold e.
      rewrite subs_insert, map_insert, He1, He2.
      unfold get. cbn [np_full1 dat shp get_array_indices np_reshape np_arange]. lia.
    + intros; lia.
    + rewrite Eout. destruct Hyz as [-> | ->].
      * replace (seq 0 rank ++ [100; 101]) with ((seq 0 rank ++ [100]) ++ [101])
          by (rewrite <- app_assoc; reflexivity).
        apply NoDup_Add with (a := 101) (l := (seq 0 rank ++ [100]) ++ []); [apply Add_app|].
        rewrite app_nil_r. split.
        -- apply NoDup_Add with (a := 100) (l := seq 0 rank ++ []); [apply Add_app|].
           rewrite app_nil_r. split; [apply seq_NoDup|assumption].
        -- rewrite in_app_iff. cbn [In]. intuition lia.
      * replace (seq 0 rank ++ [101; 100]) with ((seq 0 rank ++ [101]) ++ [100])
          by (rewrite <- app_assoc; reflexivity).
        apply NoDup_Add with (a := 100) (l := (seq 0 rank ++ [101]) ++ []); [apply Add_app|].
        rewrite app_nil_r. split.
        -- apply NoDup_Add with (a := 101) (l := seq 0 rank ++ []); [apply Add_app|].
           rewrite app_nil_r. split; [apply seq_NoDup|assumption].
        -- rewrite in_app_iff. cbn [In]. intuition lia.
    + intros l Hl. unfold ops, in_labels in Hl. cbn [map fst concat] in Hl.
      rewrite app_nil_r in Hl. apply in_app_or in Hl. rewrite Eout. apply in_or_app.
      destruct Hl as [Hl|Hl].
      * apply mem_In, mem_subs in Hl. destruct Hl as [Hl| ->].
        -- left. apply in_seq. lia.
        -- right. destruct Hyz as [-> | ->]; cbn; tauto.
      * destruct Hl as [<-|[]]. right. destruct Hyz as [-> | ->]; cbn; tauto.
    + rewrite Edim. apply inb_app; [now rewrite unravel_length|].
      split; [now apply unravel_inb|cbn; lia].
Qed.

Local Open Scope R_scope.

Lemma delete_last : forall (i : list nat) p, length i = rank -> delete [rank] (i ++ [p]) = i.
Proof.
  intros i p Hl. pose proof (delete_insert rank p i 0 ltac:(lia)) as E.
  unfold insert_at in E. rewrite firstn_all2, skipn_all2 in E by lia. exact E.
Qed.

Lemma insert_last : forall (i : list nat) p, length i = rank -> insert_at rank p i = i ++ [p].
Proof. intros i p Hl. unfold insert_at. now rewrite firstn_all2, skipn_all2 by lia. Qed.

(** a unit vector along the last axis *)
Lemma unit_at : forall ind i q, inb rest i -> (q < 3)%nat ->
  get (ell_outer (ones_of rest) (eye_row ind)) (i ++ [q]) = if Nat.eqb q ind then 1 else 0.
Proof.
  intros ind i q Hi Hq. unfold ell_outer. cbn [ones_of eye_row shp].
  pose proof (inb_length _ _ Hi) as Hl.
  rewrite get_of_fun.
  - rewrite firstn_app, skipn_app, Hl, Nat.sub_diag, firstn_O, skipn_O.
    rewrite firstn_all2, skipn_all2 by lia. cbn [app]. rewrite app_nil_r.
    unfold get. cbn [ones_of eye_row shp dat ravel size]. rewrite Nat.mul_1_r, Nat.add_0_r. lra.
  - apply inb_app; [assumption|]. split; [assumption|cbn; lia].
Qed.

(** one of the three summands of the partials, at (i, p, q) *)
Lemma tmp_at : forall a aa b ab ind i p q, inb rest i -> (p < 3)%nat -> (q < 3)%nat ->
  get (ell_outer (np_cross rest a aa b ab rank) (eye_row ind)) (i ++ [p; q]) =
  cross3 (fun t => get a (insert_at aa t i)) (fun t => get b (insert_at ab t i)) p *
  (if Nat.eqb q ind then 1 else 0).
Proof.
  intros a aa b ab ind i p q Hi Hp Hq.
  pose proof (inb_length _ _ Hi) as Hl. fold rank in Hl.
  assert (Es : insert_at rank 3 rest = rest ++ [3%nat]) by (now apply insert_last).
  unfold ell_outer. rewrite get_of_fun.
  - cbn [np_cross of_fun shp]. rewrite Es, app_length. cbn [length]. fold rank.
    replace (i ++ [p; q]) with ((i ++ [p]) ++ [q]) by (rewrite <- app_assoc; reflexivity).
    assert (Hl2 : length (i ++ [p]) = (rank + 1)%nat) by (rewrite app_length; cbn; lia).
    rewrite firstn_app, skipn_app, Hl2, Nat.sub_diag, firstn_O, skipn_O.
    rewrite firstn_all2, skipn_all2 by lia. rewrite app_nil_r.
    cbn [app]. f_equal.
    + unfold np_cross. rewrite get_of_fun.
      * rewrite delete_last by assumption. rewrite app_nth2, Hl, Nat.sub_diag by lia.
        reflexivity.
      * rewrite Es. apply inb_app; [assumption|]. split; [assumption|cbn; lia].
    + unfold get. cbn [eye_row shp dat ravel size]. now rewrite Nat.mul_1_r, Nat.add_0_r.
  - cbn [np_cross of_fun shp eye_row]. rewrite Es.
    replace (i ++ [p; q]) with ((i ++ [p]) ++ [q]) by (rewrite <- app_assoc; reflexivity).
    apply inb_app; [rewrite !app_length; cbn; lia|]. split.
    + apply inb_app; [assumption|]. split; [assumption|cbn; lia].
    + cbn; lia.
Qed.

Lemma tmp_shape : forall a aa b ab ind,
  shp (ell_outer (np_cross rest a aa b ab rank) (eye_row ind)) = rest ++ [3; 3]%nat.
Proof.
  intros. unfold ell_outer. cbn [of_fun shp np_cross eye_row].
  rewrite insert_last by reflexivity. rewrite <- app_assoc. reflexivity.
Qed.

Lemma tmp_dat : forall a aa b ab ind r p q,
  (r < size rest)%nat -> (p < 3)%nat -> (q < 3)%nat ->
  dat (ell_outer (np_cross rest a aa b ab rank) (eye_row ind)) ((r * 3 + p) * 3 + q)%nat =
  cross3 (fun t => get a (insert_at aa t (unravel rest r)))
         (fun t => get b (insert_at ab t (unravel rest r))) p *
  (if Nat.eqb q ind then 1 else 0).
Proof.
  intros a aa b ab ind r p q Hr Hp Hq.
  destruct (unravel_rpq r p q Hr Hp Hq) as [Hlt Eu].
  rewrite <- tmp_at by (try apply unravel_inb; assumption).
  unfold get at 1. rewrite tmp_shape. rewrite <- Eu. now rewrite ravel_unravel.
Qed.

(** unit vector number [q] *)
Definition unit3 (q t : nat) : R := if Nat.eqb t q then 1 else 0.

Lemma vals1_at : forall b r p q, (r < size rest)%nat -> (p < 3)%nat -> (q < 3)%nat ->
  dat (cross_vals1 s axis b) ((r * 3 + p) * 3 + q)%nat =
  cross3 (unit3 q) (fun t => get b (insert_at axis t (unravel rest r))) p.
Proof.
  intros b r p q Hr Hp Hq. unfold cross_vals1. fold rest rank.
  cbn [np_flatten np_add3 np_map2 dat]. rewrite !tmp_dat by assumption.
  pose proof (unravel_inb _ _ Hr) as Hi.
  assert (Hu : forall ind t, (t < 3)%nat ->
     get (ell_outer (ones_of rest) (eye_row ind)) (insert_at rank t (unravel rest r)) =
     unit3 ind t).
  { intros ind t Ht. rewrite insert_last by now apply unravel_length. now apply unit_at. }
  destruct p as [|[|[|p]]]; [| | |lia]; unfold cross3; rewrite !Hu by lia;
  destruct q as [|[|[|q]]]; try lia; unfold unit3; cbn [Nat.eqb]; lra.
Qed.

Lemma vals2_at : forall a r p q, (r < size rest)%nat -> (p < 3)%nat -> (q < 3)%nat ->
  dat (cross_vals2 s axis a) ((r * 3 + p) * 3 + q)%nat =
  cross3 (fun t => get a (insert_at axis t (unravel rest r))) (unit3 q) p.
Proof.
  intros a r p q Hr Hp Hq. unfold cross_vals2. fold rest rank.
  cbn [np_flatten np_add3 np_map2 dat]. rewrite !tmp_dat by assumption.
  pose proof (unravel_inb _ _ Hr) as Hi.
  assert (Hu : forall ind t, (t < 3)%nat ->
     get (ell_outer (ones_of rest) (eye_row ind)) (insert_at rank t (unravel rest r)) =
     unit3 ind t).
  { intros ind t Ht. rewrite insert_last by now apply unravel_length. now apply unit_at. }
  destruct p as [|[|[|p]]]; [| | |lia]; unfold cross3; rewrite !Hu by lia;
  destruct q as [|[|[|q]]]; try lia; unfold unit3; cbn [Nat.eqb]; lra.
Qed.

(** the flat index of (r, p) *)
Definition at_rp (r p : nat) : nat := ravel s (insert_at axis p (unravel rest r)).

Lemma inb_rp : forall r p, (r < size rest)%nat -> (p < 3)%nat ->
  inb s (insert_at axis p (unravel rest r)).
Proof.
  intros r p Hr Hp. rewrite <- s_split. apply inb_insert; [exact ax_le|].
  split; [assumption|now apply unravel_inb].
Qed.

Lemma at_rp_lt : forall r p, (r < size rest)%nat -> (p < 3)%nat -> (at_rp r p < size s)%nat.
Proof. intros r p Hr Hp. now apply ravel_lt, inb_rp. Qed.

Lemma at_rp_inj : forall r p r' p', (r < size rest)%nat -> (p < 3)%nat ->
  (r' < size rest)%nat -> (p' < 3)%nat -> at_rp r p = at_rp r' p' -> r = r' /\ p = p'.
Proof.
  intros r p r' p' Hr Hp Hr' Hp' E. unfold at_rp in E.
  apply ravel_inj in E; try now apply inb_rp.
  pose proof ax_le as Hle.
  assert (Hl : (axis <= length (unravel rest r))%nat) by (now rewrite unravel_length).
  assert (Hl' : (axis <= length (unravel rest r'))%nat) by (now rewrite unravel_length).
  split.
  - apply (unravel_inj rest); try assumption.
    pose proof (delete_insert axis p (unravel rest r) 0 Hl) as E1. rewrite E in E1.
    pose proof (delete_insert axis p' (unravel rest r') 0 Hl') as E2. congruence.
  - rewrite <- (nth_insert axis p (unravel rest r)) by assumption.
    rewrite E. now apply nth_insert.
Qed.

Lemma at_rp_surj : forall o, (o < size s)%nat ->
  exists r p, (r < size rest)%nat /\ (p < 3)%nat /\ at_rp r p = o.
Proof.
  intros o Ho. pose proof (unravel_inb _ _ Ho) as Hi.
  set (idx := unravel s o) in *.
  assert (Hl : (axis < length idx)%nat) by (rewrite (inb_length _ _ Hi); apply ax_lt).
  pose proof (insert_delete axis idx 0 Hl) as E. cbn [Nat.add] in E. fold (delete [axis] idx) in E.
  assert (Hi2 : (nth axis idx 0 < 3)%nat /\ inb rest (delete [axis] idx)).
  { apply (inb_insert axis 3 rest); [exact ax_le|]. rewrite s_split, E. exact Hi. }
  destruct Hi2 as [Hp Hr].
  exists (ravel rest (delete [axis] idx)), (nth axis idx 0%nat). splits.
  - now apply ravel_lt.
  - assumption.
  - unfold at_rp. rewrite unravel_ravel by assumption. rewrite E.
    unfold idx. now apply ravel_unravel.
Qed.

Lemma compute_at : forall x0 x1 r p, (r < size rest)%nat -> (p < 3)%nat ->
  dat (np_cross rest (Nd s x0) axis (Nd s x1) axis axis) (at_rp r p) =
  cross3 (fun t => x0 (at_rp r t)) (fun t => x1 (at_rp r t)) p.
Proof.
  intros x0 x1 r p Hr Hp.
  transitivity (get (np_cross rest (Nd s x0) axis (Nd s x1) axis axis)
                    (insert_at axis p (unravel rest r))).
  - unfold get.
    replace (shp (np_cross rest (Nd s x0) axis (Nd s x1) axis axis)) with s
      by (symmetry; exact s_split). reflexivity.
  - unfold np_cross. rewrite get_of_fun by (rewrite s_split; now apply inb_rp).
    pose proof ax_le as Hle.
    rewrite nth_insert by (now rewrite unravel_length).
    assert (E : delete [axis] (insert_at axis p (unravel rest r)) = unravel rest r).
    { apply (delete_insert axis p (unravel rest r) 0). now rewrite unravel_length. }
    cbn zeta. rewrite E. reflexivity.
Qed.

Lemma div3 : forall b, (b < size rest * 3)%nat ->
  exists r p, (r < size rest)%nat /\ (p < 3)%nat /\ b = (r * 3 + p)%nat.
Proof. intros b Hb. apply split_out. lia. Qed.

Lemma size_s : size s = (size rest * 3)%nat.
Proof.
  rewrite <- s_split at 1. unfold insert_at. rewrite size_app. cbn [size].
  rewrite <- (firstn_skipn axis rest) at 3. rewrite size_app. lia.
Qed.

Lemma cross_exact : forall (w : nd R) f x V,
  shp w = [(size rest * 9)%nat] ->
  (forall r p q, (r < size rest)%nat -> (p < 3)%nat -> (q < 3)%nat ->
     dat w ((r * 3 + p) * 3 + q)%nat = V r p q) ->
  (forall x' r p, (r < size rest)%nat -> (p < 3)%nat ->
     f x' (at_rp r p) = rsum 3 (fun q => V r p q * x' (at_rp r q))) ->
  exists j,
    as_sparse (sparse_partials (cross_pattern s axis [100; 101]%nat)
                               (cross_pattern s axis [101; 100]%nat) w) = Some j /\
    exact_jac (size s) (size s) f x j.
Proof.
  intros w f x V Hw Hv Hf. eexists. split.
  - rewrite sparse_partials_vec with (n := (size rest * 9)%nat).
    + reflexivity.
    + apply pattern_shape. now left.
    + apply pattern_shape. now right.
    + exact Hw.
  - cbn [exact_jac].
    apply exact_sparse_blocks with (B := (size rest * 3)%nat) (n := 3%nat)
      (rho := fun b => at_rp (b / 3) (b mod 3))
      (C := fun b q => at_rp (b / 3) q)
      (V := fun b q => V (b / 3)%nat (b mod 3)%nat q).
    + cbn [nnz]. lia.
    + intros b j Hb Hj. destruct (div3 b Hb) as (r & p & Hr & Hp & ->).
      rewrite div_block, mod_block by assumption. cbn [rows cols vals]. splits.
      * rewrite pattern_at by (try assumption; now left). reflexivity.
      * rewrite pattern_at by (try assumption; now right). reflexivity.
      * now apply Hv.
    + intros b Hb. destruct (div3 b Hb) as (r & p & Hr & Hp & ->).
      rewrite div_block, mod_block by assumption. now apply at_rp_lt.
    + intros b b' Hb Hb' E. destruct (div3 b Hb) as (r & p & Hr & Hp & ->).
      destruct (div3 b' Hb') as (r' & p' & Hr' & Hp' & ->).
      rewrite !div_block, !mod_block in E by assumption.
      apply at_rp_inj in E; try assumption. destruct E. now subst.
    + intros o Ho. destruct (at_rp_surj o Ho) as (r & p & Hr & Hp & E).
      exists (r * 3 + p)%nat. rewrite div_block, mod_block by assumption. split; [lia|assumption].
    + intros b j Hb Hj. destruct (div3 b Hb) as (r & p & Hr & Hp & ->).
      rewrite div_block by assumption. now apply at_rp_lt.
    + intros b j j' Hb Hj Hj' E. destruct (div3 b Hb) as (r & p & Hr & Hp & ->).
      rewrite div_block in E by assumption. now apply at_rp_inj in E.
    + intros x' b Hb. destruct (div3 b Hb) as (r & p & Hr & Hp & ->).
      rewrite div_block, mod_block by assumption. now apply Hf.
Qed.

Lemma cross_correct_section :
  exists c, cross_comp s s axis = Some c /\ c_ins c = [s; s] /\ c_out c = s /\
    correct c (cross_meaning axis).
Proof.
  unfold cross_comp. destruct (list_eq_dec Nat.eq_dec s s); [|congruence].
  rewrite Hax. fold rest rank. apply Nat.leb_le in Hrank. rewrite Hrank. apply Nat.leb_le in Hrank.
  eexists. split; [reflexivity|]. split; [reflexivity|]. split; [reflexivity|].
  apply correct2 with (F := fun x0 x1 =>
    dat (np_cross rest (Nd s x0) axis (Nd s x1) axis axis)).
  - intros x0 x1. eexists. split; [reflexivity|]. splits.
    + unfold np_cross. cbn [of_fun shp]. apply s_split.
    + exists (Nd s x0), (Nd s x1), rest.
      assert (Ew : with_axis axis 3 rest = s) by exact s_split.
      splits; cbn [shp]; try (symmetry; exact Ew); try reflexivity.
      intros idx Hi. cbn zeta.
      pose proof (ravel_lt _ _ Hi) as Hr.
      pose proof (unravel_ravel _ _ Hi) as Eu.
      assert (H : forall p, (p < 3)%nat ->
         get (np_cross rest (Nd s x0) axis (Nd s x1) axis axis) (with_axis axis p idx) =
         cross3 (fun t => get (Nd s x0) (with_axis axis t idx))
                (fun t => get (Nd s x1) (with_axis axis t idx)) p).
      { intros p Hp. pose proof (compute_at x0 x1 _ p Hr Hp) as E.
        unfold at_rp in E. rewrite Eu in E. unfold get at 1.
        replace (shp (np_cross rest (Nd s x0) axis (Nd s x1) axis axis)) with s
          by (symmetry; exact s_split). exact E. }
      splits; rewrite H by lia; reflexivity.
    + reflexivity.
  - intros x0 x1. apply cross_exact with (V := fun r p q =>
      cross3 (unit3 q) (fun t => x1 (at_rp r t)) p).
    + unfold cross_vals1. fold rest rank.
      unfold np_flatten, np_add3, np_map2. cbn [shp]. rewrite tmp_shape, size_app.
      reflexivity.
    + intros r p q Hr Hp Hq. now rewrite vals1_at.
    + intros x' r p Hr Hp. rewrite compute_at by assumption.
      cbn [rsum]. destruct p as [|[|[|p]]]; [| | |lia]; unfold cross3, unit3; cbn [Nat.eqb]; lra.
  - intros x0 x1. apply cross_exact with (V := fun r p q =>
      cross3 (fun t => x0 (at_rp r t)) (unit3 q) p).
    + unfold cross_vals2. fold rest rank.
      unfold np_flatten, np_add3, np_map2. cbn [shp]. rewrite tmp_shape, size_app.
      reflexivity.
    + intros r p q Hr Hp Hq. now rewrite vals2_at.
    + intros x' r p Hr Hp. rewrite compute_at by assumption.
      cbn [rsum]. destruct p as [|[|[|p]]]; [| | |lia]; unfold cross3, unit3; cbn [Nat.eqb]; lra.
Qed.
End Cross.

Theorem cross_correct : forall s axis,
  nth_error s axis = Some 3%nat -> (length s <= 11)%nat ->
  exists c, cross_comp s s axis = Some c /\ c_ins c = [s; s] /\ c_out c = s /\
    correct c (cross_meaning axis).
Proof.
  intros s axis Hax Hl. apply cross_correct_section; [assumption|].
  pose proof (insert_length axis 3 (delete [axis] s)) as E.
  rewrite s_split in E by assumption. lia.
Qed.

Theorem cross_rejects : forall s0 s1 axis,
  s0 <> s1 \/ nth_error s0 axis <> Some 3%nat -> cross_comp s0 s1 axis = None.
Proof.
  intros s0 s1 axis H. unfold cross_comp.
  destruct (list_eq_dec Nat.eq_dec s0 s1) as [->|]; [|reflexivity].
  destruct H as [H|H]; [congruence|].
  destruct (nth_error s1 axis) as [[|[|[|[|n]]]]|]; try reflexivity. congruence.
Qed.

(** Concrete case: a 2x3x4 array of 3-vectors along axis 1. *)
Example cross_instance : nth_error [2; 3; 4]%nat 1 = Some 3%nat /\
  with_axis 1 3 [2; 4]%nat = [2; 3; 4]%nat /\
  dat (cross_pattern [2; 3; 4]%nat 1 [100; 101]%nat) 11 = 1%nat /\
  dat (cross_pattern [2; 3; 4]%nat 1 [101; 100]%nat) 11 = 9%nat.
Proof. splits; reflexivity. Qed.
