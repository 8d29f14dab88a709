(** C117: the cross product along an axis counted from the end. *)
From Coq Require Import Reals Lra Lia Arith List Bool.
From Verif Require Import PyBase RSum NdArray NdEinsum Component JacSpec CompReorder ReorderProofs
  CompReduce SpecReduce ReduceProofs CompProduct SpecProduct ProductProofs CrossProofs MatStack CrossNeg.
Import ListNotations.
Local Open Scope nat_scope.

(** ---- the pattern along any axis, whatever its extent ---- *)
Section Pattern.
Variables (s : list nat) (axis : nat).
Hypothesis Hax : axis < length s.
Let rest := delete [axis] s.
Let rank := length rest.
Let n := nth axis s 0.
Hypothesis Hrank : rank <= 10.

Lemma any_split : insert_at axis n rest = s.
Proof. apply (insert_delete axis s 0), Hax. Qed.

Lemma any_le : axis <= rank.
Proof. pose proof (insert_length axis n rest) as E. rewrite any_split in E. unfold rank. lia. Qed.

Lemma any_subs : cross_subs axis rank = insert_at axis 100 (seq 0 rank).
Proof.
  pose proof any_le. unfold cross_subs, insert_at.
  replace rank with (axis + (rank - axis)) at 2 3 by lia.
  rewrite seq_app, firstn_app, skipn_app, seq_length, Nat.sub_diag, firstn_O, skipn_O.
  rewrite firstn_all2, skipn_all2 by (rewrite seq_length; lia).
  cbn [app Nat.add]. now rewrite app_nil_r.
Qed.

Lemma any_NoDup : NoDup (cross_subs axis rank).
Proof.
  rewrite any_subs. unfold insert_at. apply NoDup_Add with (a := 100) (l := seq 0 rank).
  - rewrite <- (firstn_skipn axis (seq 0 rank)) at 1. apply Add_app.
  - split; [apply seq_NoDup|]. rewrite in_seq. lia.
Qed.

Lemma any_out : seq 0 axis ++ seq axis (rank - axis) = seq 0 rank.
Proof. pose proof any_le. replace rank with (axis + (rank - axis)) at 2 by lia. now rewrite seq_app. Qed.

Let ops := [(cross_subs axis rank, get_array_indices s); ([101], np_full1 3 1)].

Lemma any_mem : forall l, mem l (cross_subs axis rank) = true <-> l < rank \/ l = 100.
Proof.
  intros l. rewrite mem_In, any_subs. unfold insert_at.
  rewrite in_app_iff. cbn [In].
  assert (E : In l (seq 0 rank) <-> In l (firstn axis (seq 0 rank)) \/ In l (skipn axis (seq 0 rank))).
  { rewrite <- in_app_iff, firstn_skipn. tauto. }
  rewrite in_seq in E.
  assert (E2 : l < rank <-> In l (firstn axis (seq 0 rank)) \/ In l (skipn axis (seq 0 rank)))
    by (rewrite <- E; lia).
  rewrite E2. intuition.
Qed.

Lemma any_dims : map (env_of (cross_subs axis rank) s) (seq 0 rank) = rest /\
  env_of (cross_subs axis rank) s 100 = n.
Proof.
  assert (E : map (env_of (cross_subs axis rank) s) (cross_subs axis rank) = s).
  { apply map_env_of; [apply any_NoDup|].
    rewrite any_subs, insert_length, seq_length. unfold rank.
    rewrite <- any_split at 1. now rewrite insert_length. }
  rewrite any_subs, map_insert in E. rewrite <- any_subs in E.
  set (g := env_of (cross_subs axis rank) s) in *.
  pose proof any_le as Hle.
  assert (Hl : axis <= length (map g (seq 0 rank))) by (rewrite map_length, seq_length; exact Hle).
  split.
  - pose proof (delete_insert axis (g 100) (map g (seq 0 rank)) 0 Hl) as E1.
    cbn [Nat.add] in E1. rewrite E in E1. symmetry. exact E1.
  - pose proof (nth_insert axis (g 100) (map g (seq 0 rank)) Hl) as E1.
    rewrite E in E1. now rewrite <- E1.
Qed.

Lemma any_dims_rest : map (dim_of ops) (seq 0 rank) = rest.
Proof.
  rewrite <- (proj1 any_dims). apply map_ext_in. intros l Hl. apply in_seq in Hl.
  unfold ops. cbn [dim_of].
  assert (E : mem l (cross_subs axis rank) = true) by (apply any_mem; lia).
  rewrite E. reflexivity.
Qed.

Lemma any_dim_y : dim_of ops 100 = n.
Proof.
  unfold ops. cbn [dim_of].
  assert (E : mem 100 (cross_subs axis rank) = true) by (apply any_mem; now right).
  rewrite E. exact (proj2 any_dims).
Qed.

Lemma any_dim_z : dim_of ops 101 = 3.
Proof.
  unfold ops. cbn [dim_of].
  assert (E : mem 101 (cross_subs axis rank) = false).
  { destruct (mem 101 (cross_subs axis rank)) eqn:E; [|reflexivity].
    apply any_mem in E. lia. }
  rewrite E. reflexivity.
Qed.

(** in either order, entry number (r,t) of the pattern lies on line [r] of [axis] *)
Lemma any_pattern : forall yz r t, yz = [100; 101] \/ yz = [101; 100] ->
  r < size rest -> t < n * 3 ->
  exists y, y < n /\
    dat (cross_pattern s axis yz) (r * (n * 3) + t) = ravel s (insert_at axis y (unravel rest r)).
Proof.
  intros yz r t Hyz Hr Ht.
  set (d := map (dim_of ops) yz).
  assert (Hd : size d = n * 3).
  { unfold d. destruct Hyz as [-> | ->]; cbn [map size]; rewrite any_dim_y, any_dim_z; lia. }
  set (j := unravel d t).
  assert (Hj : inb d j) by (apply unravel_inb; lia).
  assert (Ej : ravel d j = t) by (apply ravel_unravel; lia).
  assert (Lj : length j = length yz) by (unfold j, d; rewrite unravel_length; apply map_length).
  unfold cross_pattern. fold rest rank. fold ops. cbn [np_flatten dat].
  set (out := seq 0 axis ++ seq axis (rank - axis) ++ yz).
  assert (Eout : out = seq 0 rank ++ yz) by (unfold out; now rewrite app_assoc, any_out).
  assert (Edim : map (dim_of ops) out = rest ++ d)
    by (rewrite Eout, map_app, any_dims_rest; reflexivity).
  assert (Hin : inb (rest ++ d) (unravel rest r ++ j)).
  { apply inb_app; [apply unravel_length|]. split; [now apply unravel_inb|exact Hj]. }
  assert (Er : ravel (rest ++ d) (unravel rest r ++ j) = r * (n * 3) + t).
  { rewrite ravel_app by apply unravel_length. rewrite ravel_unravel, Hd, Ej by exact Hr. reflexivity. }
  set (e := env_of out (unravel rest r ++ j)).
  assert (Hlen : length (unravel rest r) = length (seq 0 rank))
    by (now rewrite unravel_length, seq_length).
  assert (He1 : map e (seq 0 rank) = unravel rest r).
  { transitivity (map (env_of (seq 0 rank) (unravel rest r)) (seq 0 rank)).
    - apply map_ext_in. intros l Hl. unfold e. rewrite Eout. now apply env_of_app_l.
    - apply map_env_of; [apply seq_NoDup|exact Hlen]. }
  assert (Hn100 : ~ In 100 (seq 0 rank)) by (rewrite in_seq; lia).
  assert (Hn101 : ~ In 101 (seq 0 rank)) by (rewrite in_seq; lia).
  exists (e 100). split.
  - unfold e. rewrite Eout, env_of_app_r by assumption. unfold d in Hj.
    destruct j as [|j0 [|j1 [|j2 j]]]; destruct Hyz as [-> | ->]; try (cbn in Lj; discriminate Lj);
      cbn [map inb] in Hj; rewrite any_dim_y in Hj; cbn; lia.
  - transitivity (get (n_einsum ops out) (unravel rest r ++ j)).
    + unfold get, n_einsum, np_einsum. cbn [of_fun shp dat]. rewrite Edim.
      rewrite Er. reflexivity.
    + unfold n_einsum. rewrite einsum_plain.
      * unfold term, ops. cbn [map fst snd gprod]. fold e.
        rewrite any_subs, map_insert, He1.
        unfold get. cbn [np_full1 dat shp get_array_indices np_reshape np_arange]. lia.
      * intros; lia.
      * rewrite Eout. destruct Hyz as [-> | ->].
        -- replace (seq 0 rank ++ [100; 101]) with ((seq 0 rank ++ [100]) ++ [101])
             by (rewrite <- app_assoc; reflexivity).
           apply NoDup_Add with (a := 101) (l := (seq 0 rank ++ [100]) ++ []); [apply Add_app|].
           rewrite app_nil_r. split.
           ++ apply NoDup_Add with (a := 100) (l := seq 0 rank ++ []); [apply Add_app|].
              rewrite app_nil_r. split; [apply seq_NoDup|assumption].
           ++ rewrite in_app_iff. cbn [In]. intuition lia.
        -- replace (seq 0 rank ++ [101; 100]) with ((seq 0 rank ++ [101]) ++ [100])
             by (rewrite <- app_assoc; reflexivity).
           apply NoDup_Add with (a := 100) (l := (seq 0 rank ++ [101]) ++ []); [apply Add_app|].
           rewrite app_nil_r. split.
           ++ apply NoDup_Add with (a := 101) (l := seq 0 rank ++ []); [apply Add_app|].
              rewrite app_nil_r. split; [apply seq_NoDup|assumption].
           ++ rewrite in_app_iff. cbn [In]. intuition lia.
      * intros l Hl. unfold ops, in_labels in Hl. cbn [map fst concat] in Hl.
        rewrite app_nil_r in Hl. apply in_app_or in Hl. rewrite Eout. apply in_or_app.
        destruct Hl as [Hl|Hl].
        -- apply mem_In, any_mem in Hl. destruct Hl as [Hl| ->].
           ++ left. apply in_seq. lia.
           ++ right. destruct Hyz as [-> | ->]; cbn; tauto.
        -- destruct Hl as [<-|[]]. right. destruct Hyz as [-> | ->]; cbn; tauto.
      * rewrite Edim. exact Hin.
Qed.

Lemma any_shape : forall yz, yz = [100; 101] \/ yz = [101; 100] ->
  shp (cross_pattern s axis yz) = [size rest * (n * 3)].
Proof.
  intros yz Hyz. unfold cross_pattern. fold rest rank. fold ops.
  unfold np_flatten, n_einsum, np_einsum. cbn [of_fun shp]. f_equal.
  rewrite app_assoc, any_out, map_app, any_dims_rest, size_app. f_equal.
  destruct Hyz as [-> | ->]; cbn [map size]; rewrite any_dim_y, any_dim_z; lia.
Qed.

(** A row and its column agree on every other axis. *)
Lemma any_shared : forall k a i j, k < size rest * (n * 3) -> a <> axis ->
  inb s i -> inb s j ->
  dat (cross_pattern s axis [100; 101]) k = ravel s i ->
  dat (cross_pattern s axis [101; 100]) k = ravel s j -> nth a i 0 = nth a j 0.
Proof.
  intros k a i j Hk Ha Hi Hj Ei Ej.
  destruct (split_out (size rest) (n * 3) k Hk) as (r & t & Hr & Ht & ->).
  destruct (any_pattern [100; 101] r t ltac:(tauto) Hr Ht) as (y & Hy & Ey).
  destruct (any_pattern [101; 100] r t ltac:(tauto) Hr Ht) as (z & Hz & Ez).
  assert (B : forall w, w < n -> inb s (insert_at axis w (unravel rest r))).
  { intros w Hw. rewrite <- any_split. apply inb_insert; [exact any_le|].
    split; [exact Hw|now apply unravel_inb]. }
  rewrite Ei in Ey. rewrite Ej in Ez.
  apply ravel_inj in Ey; [|exact Hi|now apply B]. apply ravel_inj in Ez; [|exact Hj|now apply B].
  rewrite Ey, Ez. pose proof any_le as Hle. unfold insert_at.
  assert (Lf : length (firstn axis (unravel rest r)) = axis)
    by (rewrite firstn_length, unravel_length; unfold rank in Hle; lia).
  destruct (lt_eq_lt_dec a axis) as [[H|H]|H]; [| congruence |].
  - rewrite !app_nth1 by lia. reflexivity.
  - rewrite !app_nth2 by lia. rewrite Lf. destruct (a - axis) as [|m] eqn:E; [lia|]. reflexivity.
Qed.
End Pattern.

(** ---- which subscripts fit ---- *)

Lemma without_length : forall s k, 1 <= k -> k <= length s ->
  length (shape_without s k) = if Nat.eqb k 1 then 2 * length s - 1 else length s - 1.
Proof.
  intros s k H1 H. unfold shape_without, before_end, from_end.
  rewrite app_length, firstn_length.
  destruct (Nat.eqb_spec k 1) as [->|]; [lia|].
  destruct k as [|[|k]]; [lia|lia|]. rewrite skipn_length. lia.
Qed.

Lemma letters_before_length : forall k, length (letters_before k) = 10 - k.
Proof. intros k. unfold letters_before, before_end, ten_letters. rewrite firstn_length, seq_length. lia. Qed.

Lemma letters_after_length : forall k r, length (letters_after k r) = Nat.min r 10 - (10 - k).
Proof.
  intros k r. unfold letters_after, ten_letters. rewrite skipn_length, firstn_length, !seq_length. lia.
Qed.

Definition fits (r k : nat) : Prop :=
  (2 <= k /\ 11 <= r + k /\ r <= 11) \/ (k = 1 /\ r = 11).

Lemma subs_fit : forall s k, 1 <= k -> k <= length s ->
  (length (letters_before k ++ [100] ++ letters_after k (length (shape_without s k))) = length s <->
   fits (length s) k).
Proof.
  intros s k H1 H. rewrite !app_length, letters_before_length, letters_after_length.
  rewrite without_length by assumption. cbn [length]. unfold fits.
  destruct (Nat.eqb_spec k 1); lia.
Qed.

Lemma firstn_seq' : forall n a k, firstn k (seq a n) = seq a (Nat.min k n).
Proof.
  induction n as [|n IH]; intros a k.
  - rewrite Nat.min_0_r. now destruct k.
  - destruct k as [|k]; [reflexivity|]. cbn [seq firstn Nat.min]. now rewrite IH.
Qed.

Lemma skipn_seq' : forall n a k, skipn k (seq a n) = seq (a + k) (n - k).
Proof.
  induction n as [|n IH]; intros a k.
  - now destruct k.
  - destruct k as [|k]; cbn [skipn Nat.sub].
    + now rewrite Nat.add_0_r.
    + cbn [seq skipn]. rewrite IH. f_equal. lia.
Qed.

Lemma delete_length : forall (s : list nat) p, p < length s -> length (delete [p] s) = length s - 1.
Proof.
  intros s p H. pose proof (insert_delete p s 0 H) as E. cbn [Nat.add] in E.
  pose proof (insert_length p (nth p s 0) (delete_from 0 [p] s)) as E2. rewrite E in E2.
  unfold delete. lia.
Qed.

(** the pattern that is formed is that of the axis 10 - k *)
Lemma neg_pattern_is : forall s k yz, 1 <= k -> k <= length s ->
  (fits (length s) k -> 10 - k < length s /\ neg_pattern s k yz = Some (cross_pattern s (10 - k) yz)) /\
  (~ fits (length s) k -> neg_pattern s k yz = None).
Proof.
  intros s k yz H1 H. pose proof (subs_fit s k H1 H) as F. unfold neg_pattern.
  destruct (Nat.eqb_spec (length (letters_before k ++ [100] ++
              letters_after k (length (shape_without s k)))) (length s)) as [E|E].
  - split; [|intros N; destruct N; now apply F]. intros Fi.
    assert (L : 10 - k < length s) by (unfold fits in Fi; lia).
    split; [exact L|].
    assert (Eb : letters_before k = seq 0 (10 - k)).
    { unfold letters_before, before_end, ten_letters. rewrite seq_length, firstn_seq'. f_equal. lia. }
    assert (Ea : letters_after k (length (shape_without s k)) =
                 seq (10 - k) (length (delete [10 - k] s) - (10 - k))).
    { rewrite delete_length by exact L. rewrite without_length by assumption.
      unfold letters_after, ten_letters. rewrite seq_length, firstn_seq', skipn_seq'. cbn [Nat.add].
      f_equal. unfold fits in Fi. destruct (Nat.eqb_spec k 1); lia. }
    rewrite Eb, Ea. reflexivity.
  - split; [intros Fi; destruct E; now apply F|reflexivity].
Qed.

(** ---- the component ---- *)

Lemma cross_end_returns : forall s0 s1 k, 1 <= k ->
  cross_from_end s0 s1 k <> CallRaises <->
  s0 = s1 /\ k <= length s0 /\ nth_error s0 (length s0 - k) = Some 3.
Proof.
  intros s0 s1 k Hk. unfold cross_from_end.
  destruct (list_eq_dec Nat.eq_dec s0 s1) as [E|E]; [|split; [congruence|tauto]].
  destruct (Nat.leb_spec k (length s0)) as [L|L]; [|split; [congruence|intros (_ & C & _); lia]].
  destruct (nth_error s0 (length s0 - k)) as [[|[|[|[|n]]]]|];
    try (split; [congruence|intros (_ & _ & C); discriminate C]).
  split; [tauto|]. intros _. destruct (neg_pattern s0 k [100; 101]), (neg_pattern s0 k [101; 100]); discriminate.
Qed.

Lemma cross_end_set_up : forall s k, 1 <= k -> k <= length s -> nth_error s (length s - k) = Some 3 ->
  ((exists c, cross_from_end s s k = Ready s c) <-> fits (length s) k) /\
  (~ fits (length s) k -> cross_from_end s s k = SetupRaises s).
Proof.
  intros s k H1 H Hax. unfold cross_from_end.
  destruct (list_eq_dec Nat.eq_dec s s); [|congruence].
  apply Nat.leb_le in H as L. rewrite L, Hax.
  destruct (neg_pattern_is s k [100; 101] H1 H) as [A1 B1].
  destruct (neg_pattern_is s k [101; 100] H1 H) as [A2 B2].
  assert (D : fits (length s) k \/ ~ fits (length s) k) by (unfold fits; lia).
  split.
  - split.
    + destruct D as [D|D]; [tauto|]. rewrite (B1 D). intros [c E]. discriminate E.
    + intros D'. destruct (A1 D') as [_ ->], (A2 D') as [_ ->]. eauto.
  - intros N. now rewrite (B1 N).
Qed.

Local Open Scope R_scope.

(** the pattern is that of the axis asked for: the component is the one of that axis *)
Lemma cross_end_right : forall s k c, (1 <= k)%nat -> cross_from_end s s k = Ready s c ->
  length s = 10%nat \/ k = 11%nat ->
  cross_comp s s (length s - k) = Some c /\ correct c (cross_meaning (length s - k)).
Proof.
  intros s k c H1 E R.
  assert (Q : cross_from_end s s k <> CallRaises) by (rewrite E; discriminate).
  apply cross_end_returns in Q; [|exact H1]. destruct Q as (_ & H & Hax).
  assert (F : fits (length s) k) by (apply (cross_end_set_up s k H1 H Hax); eauto).
  assert (P : (10 - k = length s - k /\ 2 <= k /\ length s <= 11)%nat) by (unfold fits in F; lia).
  destruct P as (P & H2 & H11).
  destruct (cross_correct s (length s - k) Hax H11) as (c' & Ec & _ & _ & Hc).
  enough (c' = c) as <- by now split.
  unfold cross_from_end in E. unfold cross_comp in Ec.
  destruct (list_eq_dec Nat.eq_dec s s); [|congruence].
  apply Nat.leb_le in H as L. rewrite L, Hax in E. rewrite Hax in Ec.
  destruct (neg_pattern_is s k [100; 101]%nat H1 H) as [A1 _]. destruct (A1 F) as [_ A1'].
  destruct (neg_pattern_is s k [101; 100]%nat H1 H) as [A2 _]. destruct (A2 F) as [_ A2'].
  rewrite A1', A2', P in E.
  destruct (Nat.leb (length (delete [(length s - k)%nat] s)) 10); [|discriminate Ec].
  injection Ec as <-. injection E as <-.
  destruct k as [|[|k]]; [lia|lia|]. reflexivity.
Qed.

Lemma coo_entry_none : forall c o i,
  (forall k, (k < nnz c)%nat -> ~ (rows c k = o /\ cols c k = i)) -> coo_entry c o i = 0.
Proof.
  intros c o i H. unfold coo_entry. rewrite rsum_ext with (g := fun _ => 0).
  - clear. induction (nnz c) as [|n IH]; [reflexivity|]. cbn [rsum]. rewrite IH. lra.
  - intros k Hk. destruct (Nat.eqb_spec (rows c k) o); [|reflexivity].
    destruct (Nat.eqb_spec (cols c k) i); [|reflexivity]. destruct (H k Hk). now split.
Qed.

(** the pattern is that of another axis: the derivatives are not right *)
Lemma cross_end_wrong : forall s k c, (1 <= k)%nat -> (0 < size s)%nat ->
  cross_from_end s s k = Ready s c -> length s <> 10%nat -> k <> 11%nat ->
  ~ correct c (cross_meaning (length s - k)).
Proof.
  intros s k c H1 Hs E R10 R11 [F [HF HJ]].
  assert (Q : cross_from_end s s k <> CallRaises) by (rewrite E; discriminate).
  apply cross_end_returns in Q; [|exact H1]. destruct Q as (_ & H & Hax).
  assert (Fi : fits (length s) k) by (apply (cross_end_set_up s k H1 H Hax); eauto).
  assert (P : (length s - k <> 10 - k /\ length s <= 11)%nat) by (unfold fits in Fi; lia).
  destruct P as (P & H11).
  set (a := (length s - k)%nat) in *.
  assert (La : (a < length s)%nat) by (unfold a; lia).
  assert (Hr : (length (delete [a] s) <= 10)%nat) by (rewrite delete_length by exact La; lia).
  assert (Hsz : (0 < size (delete [a] s))%nat).
  { rewrite (size_s s a Hax Hr) in Hs. lia. }
  unfold cross_from_end in E. destruct (list_eq_dec Nat.eq_dec s s); [|congruence].
  apply Nat.leb_le in H as L. rewrite L in E. fold a in E. rewrite Hax in E.
  destruct (neg_pattern_is s k [100; 101]%nat H1 H) as [A1 _]. destruct (A1 Fi) as [Lp A1'].
  destruct (neg_pattern_is s k [101; 100]%nat H1 H) as [A2 _]. destruct (A2 Fi) as [_ A2'].
  rewrite A1', A2' in E. injection E as <-.
  set (p := (10 - k)%nat) in *.
  set (v := fun _ _ : nat => 1).
  destruct (HJ v 0%nat I ltac:(cbn; lia)) as (j & Ej & Hj).
  cbn [comp2 c_partials c_ins c_out inputs_of length seq map nth] in Ej, Hj.
  destruct (Nat.eq_dec k 1) as [->|K1]; [discriminate Ej|].
  assert (Ej' : as_sparse (sparse_partials (cross_pattern s p [100; 101]%nat)
                 (cross_pattern s p [101; 100]%nat) (cross_vals1 s a (Nd s (v 1%nat)))) = Some j).
  { destruct k as [|[|k]]; [lia|lia|]. exact Ej. }
  clear Ej.
  assert (Hp10 : (length (delete [p] s) <= 10)%nat) by (rewrite delete_length by exact Lp; lia).
  set (o := at_rp s a 0 0). set (i := at_rp s a 0 1).
  assert (Ho : (o < size s)%nat) by (apply at_rp_lt; auto; lia).
  assert (Hi : (i < size s)%nat) by (apply at_rp_lt; auto; lia).
  (* no entry of the pattern is at (o, i) *)
  assert (Z : exists c, j = Sparse c /\ coo_entry c o i = 0).
  { unfold sparse_partials in Ej'.
    pose proof (any_shape s p Lp Hp10 [100; 101]%nat ltac:(tauto)) as S1.
    pose proof (any_shape s p Lp Hp10 [101; 100]%nat ltac:(tauto)) as S2.
    assert (NE : forall m, (m < size (shp (cross_pattern s p [100; 101]%nat)))%nat ->
      ~ (dat (cross_pattern s p [100; 101]%nat) m = o /\ dat (cross_pattern s p [101; 100]%nat) m = i)).
    { intros m Hm [E1 E2]. rewrite S1 in Hm. cbn [size] in Hm. rewrite Nat.mul_1_r in Hm.
      assert (N : nth a (insert_at a 0 (unravel (delete [a] s) 0)) 0%nat =
                  nth a (insert_at a 1 (unravel (delete [a] s) 0)) 0%nat).
      { apply (any_shared s p Lp Hp10 m a) with (2 := P); try assumption.
        - apply inb_rp; auto; lia.
        - apply inb_rp; auto; lia. }
      pose proof (ax_le s a Hax Hr) as Hle.
      rewrite !nth_insert in N by (rewrite unravel_length; exact Hle). discriminate N. }
    destruct (list_eq_dec _ (shp (cross_pattern s p [100; 101]%nat)) _); [|discriminate Ej'].
    destruct (list_eq_dec _ (shp (cross_pattern s p [101; 100]%nat)) _); [|discriminate Ej'].
    destruct (list_eq_dec _ (shp (cross_vals1 _ _ _)) (shp (cross_pattern s p [100; 101]%nat)));
      [|destruct (list_eq_dec _ (shp (cross_vals1 _ _ _)) []); [|discriminate Ej']];
      injection Ej' as <-; eexists; (split; [reflexivity|]);
      apply coo_entry_none; cbn [nnz rows cols]; exact NE. }
  destruct Z as (w & -> & Z).
  destruct Hj as [_ Hjac]. specialize (Hjac o i Ho Hi). rewrite Z in Hjac. unfold partial_at in Hjac.
  (* the true derivative is one *)
  assert (V : forall t, F (set_op v 0 (upd (v 0%nat) i t)) o = t - 1).
  { intros t. destruct (HF (set_op v 0 (upd (v 0%nat) i t))) as [EF _].
    cbn [comp2 c_compute c_ins c_out inputs_of length seq map nth] in EF.
    unfold set_op in EF at 1 2. cbn [Nat.eqb] in EF. injection EF as EF1 EF2.
    assert (EF : forall q, F (set_op v 0 (upd (v 0%nat) i t)) q =
       dat (np_cross (delete [a] s) (Nd s (upd (v 0%nat) i t)) a (Nd s (v 1%nat)) a a) q).
    { intros q. rewrite <- EF2. reflexivity. }
    rewrite EF. unfold o. rewrite compute_at by (auto; lia).
    unfold cross3, upd, v. fold i. rewrite Nat.eqb_refl.
    destruct (Nat.eqb_spec (at_rp s a 0 2) i) as [C|C].
    - apply at_rp_inj in C; auto; lia.
    - lra. }
  assert (D1 : derivable_pt_lim (fun t => F (set_op v 0 (upd (v 0%nat) i t)) o) (v 0%nat i) 1).
  { assert (E1 : derivable_pt_lim (fun t => t - 1) (v 0%nat i) 1).
    { pose proof (derivable_pt_lim_minus id (fct_cte 1) (v 0%nat i) 1 0
        (derivable_pt_lim_id _) (derivable_pt_lim_const _ _)) as M.
      rewrite Rminus_0_r in M. exact M. }
    intros eps Heps. destruct (E1 eps Heps) as [d Hd]. exists d. intros h Hh Hlt. rewrite !V. now apply Hd. }
  pose proof (uniqueness_limite _ _ _ _ D1 Hjac). lra.
Qed.

Lemma cross_end_works : forall s k c, (1 <= k)%nat -> (0 < size s)%nat ->
  cross_from_end s s k = Ready s c ->
  (correct c (cross_meaning (length s - k)) <-> length s = 10%nat \/ k = 11%nat) /\
  (length s = 10%nat \/ k = 11%nat -> cross_comp s s (length s - k) = Some c).
Proof.
  intros s k c H1 Hs E. split.
  - split.
    + intros C. destruct (Nat.eq_dec (length s) 10) as [|N1]; [now left|].
      destruct (Nat.eq_dec k 11) as [|N2]; [now right|].
      destruct (cross_end_wrong s k c H1 Hs E N1 N2 C).
    + intros R. now apply (cross_end_right s k c H1 E).
  - intros R. now apply (cross_end_right s k c H1 E).
Qed.

Lemma cross_end_small : forall s k, (1 <= k)%nat -> (length s <= 5)%nat ->
  nth_error s (length s - k) = Some 3%nat -> (k <= length s)%nat -> cross_from_end s s k = SetupRaises s.
Proof.
  intros s k H1 H5 Hax H. apply (cross_end_set_up s k H1 H Hax). unfold fits. lia.
Qed.

Lemma cross_end_refuted : ~ (forall s k, (1 <= k)%nat -> (k <= length s)%nat ->
  nth_error s (length s - k) = Some 3%nat ->
  exists c, cross_from_end s s k = Ready s c /\ correct c (cross_meaning (length s - k))).
Proof.
  intros H. destruct (H [2; 3]%nat 1%nat) as (c & E & _); [lia|cbn; lia|reflexivity|].
  rewrite (cross_end_small [2; 3]%nat 1 (le_n 1)) in E;
    [discriminate E|cbn; lia|reflexivity|cbn; lia].
Qed.

(** Concrete cases: the last of two axes (setup raises); the axis -5 of six (set up,
    with the pattern of the last axis); the first of ten (right). *)
Example cross_end_cases :
  cross_from_end [2; 3]%nat [2; 3]%nat 1 = SetupRaises [2; 3]%nat /\
  (exists c, cross_from_end [1; 3; 1; 1; 1; 1]%nat [1; 3; 1; 1; 1; 1]%nat 5 = Ready [1; 3; 1; 1; 1; 1]%nat c /\
     ~ correct c (cross_meaning 1)) /\
  (exists c, cross_from_end [3; 1; 1; 1; 1; 1; 1; 1; 1; 2]%nat [3; 1; 1; 1; 1; 1; 1; 1; 1; 2]%nat 10 =
      Ready [3; 1; 1; 1; 1; 1; 1; 1; 1; 2]%nat c /\ correct c (cross_meaning 0)).
Proof.
  split; [apply cross_end_small; [lia|cbn; lia|reflexivity|cbn; lia]|]. split.
  - destruct (cross_end_set_up [1; 3; 1; 1; 1; 1]%nat 5 ltac:(lia) ltac:(cbn; lia) eq_refl) as [[_ U] _].
    destruct U as [c E]; [left; cbn; lia|]. exists c. split; [exact E|].
    apply (cross_end_wrong [1; 3; 1; 1; 1; 1]%nat 5 c ltac:(lia) ltac:(cbn; lia) E); [cbn; lia|lia].
  - destruct (cross_end_set_up [3; 1; 1; 1; 1; 1; 1; 1; 1; 2]%nat 10 ltac:(lia) ltac:(cbn; lia) eq_refl) as [[_ U] _].
    destruct U as [c E]; [left; cbn; lia|]. exists c. split; [exact E|].
    apply (cross_end_right [3; 1; 1; 1; 1; 1; 1; 1; 1; 2]%nat 10 c ltac:(lia) E). now left.
Qed.
