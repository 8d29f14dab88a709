(** Proofs about structure_data. *)
From Coq Require Import Reals Lra Lia Arith List Bool.
From Verif Require Import PyBase RSum NdArray StructureData SpecData.
Import ListNotations.
Local Open Scope R_scope.

Definition lengths (inputs : list (list R)) : list nat := map (@length R) inputs.

Lemma fold_left_op : forall (op : R -> R -> R) (le : R -> R -> Prop),
  (forall x, le x x) -> (forall x y z, le x y -> le y z -> le x z) ->
  (forall x y, op x y = x \/ op x y = y) -> (forall x y, le (op x y) x) -> (forall x y, le (op x y) y) ->
  forall l x, In (fold_left op l x) (x :: l) /\ forall z, In z (x :: l) -> le (fold_left op l x) z.
Proof.
  intros op le Hr Ht Hc H1 H2. induction l as [|y l IH]; intros x; cbn [fold_left].
  - split; [now left|]. intros z [<-|[]]. apply Hr.
  - destruct (IH (op x y)) as [A B]. split.
    + destruct A as [A|A]; [|right; now right].
      rewrite <- A. destruct (Hc x y) as [->| ->]; [now left|right; now left].
    + intros z Hz. destruct Hz as [<-|[<-|Hz]].
      * eapply Ht; [apply B; now left|apply H1].
      * eapply Ht; [apply B; now left|apply H2].
      * apply B. now right.
Qed.

Lemma reduced_min : forall a m, reduced Rmin a = Some m -> least m (map (dat a) (seq 0 (size (shp a)))).
Proof.
  intros a m H. unfold reduced in H. destruct (map (dat a) (seq 0 (size (shp a)))) as [|x l]; [discriminate|].
  inversion H; subst. apply (fold_left_op Rmin Rle); intros.
  - lra.
  - lra.
  - unfold Rmin. destruct (Rle_dec x0 y); auto.
  - apply Rmin_l.
  - apply Rmin_r.
Qed.

Lemma reduced_max : forall a m, reduced Rmax a = Some m -> greatest m (map (dat a) (seq 0 (size (shp a)))).
Proof.
  intros a m H. unfold reduced in H. destruct (map (dat a) (seq 0 (size (shp a)))) as [|x l]; [discriminate|].
  inversion H; subst. apply (fold_left_op Rmax (fun x y => y <= x)); intros.
  - lra.
  - lra.
  - unfold Rmax. destruct (Rle_dec x0 y); auto.
  - apply Rmax_l.
  - apply Rmax_r.
Qed.

Lemma reduced_some : forall op a, (0 < size (shp a))%nat -> exists m, reduced op a = Some m.
Proof.
  intros op a H. unfold reduced. destruct (size (shp a)) as [|n]; [lia|]. cbn [seq map]. eexists. reflexivity.
Qed.

(** When the outputs fit the grid there is a result. *)
Lemma structure_some : forall inputs out ny, (0 < ny)%nat -> inputs <> [] ->
  (0 < size (lengths inputs))%nat -> (size out / ny)%nat = size (lengths inputs) ->
  exists lo hi xl,
    structure_data inputs out ny = Some (Nd [size (lengths inputs); length inputs] (dat (meshgrid inputs)), xl) /\
    reduced Rmin (Nd [size (lengths inputs); length inputs] (dat (meshgrid inputs))) = Some lo /\
    reduced Rmax (Nd [size (lengths inputs); length inputs] (dat (meshgrid inputs))) = Some hi /\
    forall k, (k < length inputs)%nat -> get xl [k; 0%nat] = lo /\ get xl [k; 1%nat] = hi.
Proof.
  intros inputs out ny Hny Hne Hpos Hout. unfold structure_data.
  destruct (Nat.eqb_spec ny 0); [lia|]. rewrite Hout. unfold reshaped.
  assert (Es : size (shp (meshgrid inputs)) = (length inputs * size (lengths inputs))%nat) by reflexivity.
  rewrite Es. replace (size [size (lengths inputs); length inputs]) with (length inputs * size (lengths inputs))%nat by (cbn [size]; lia).
  rewrite Nat.eqb_refl. unfold np_reshape.
  assert (Hp : (0 < size (shp (Nd [size (lengths inputs); length inputs] (dat (meshgrid inputs)))))%nat).
  { cbn [shp size]. destruct inputs; [congruence|]. cbn [length]. nia. }
  destruct (reduced_some Rmin _ Hp) as (lo & Elo). destruct (reduced_some Rmax _ Hp) as (hi & Ehi).
  rewrite Elo, Ehi. exists lo, hi. eexists. splits; try reflexivity.
  - intros k Hk. rewrite !get_of_fun by (cbn [inb]; lia). auto.
Qed.

Lemma structure_inv : forall inputs out ny xt xl, structure_data inputs out ny = Some (xt, xl) ->
  (0 < ny)%nat /\ inputs <> [] /\ (0 < size (lengths inputs))%nat /\ (size out / ny)%nat = size (lengths inputs).
Proof.
  intros inputs out ny xt xl H. unfold structure_data in H.
  destruct (Nat.eqb_spec ny 0) as [|Hny]; [discriminate|].
  unfold reshaped in H.
  assert (Es : size (shp (meshgrid inputs)) = (length inputs * size (lengths inputs))%nat) by reflexivity.
  rewrite Es in H. cbn [size] in H.
  destruct (Nat.eqb_spec (length inputs * size (lengths inputs)) (size out / ny * (length inputs * 1))) as [E|]; [|discriminate].
  unfold reduced in H. cbn [np_reshape shp size] in H.
  destruct inputs as [|l inputs].
  - cbn [length] in H. rewrite Nat.mul_0_l, Nat.mul_0_r in H. discriminate.
  - set (n := length (l :: inputs)) in *. assert (Hn : (0 < n)%nat) by (unfold n; cbn; lia).
    assert (E' : (size out / ny)%nat = size (lengths (l :: inputs))) by nia.
    splits; [lia|congruence| |exact E'].
    destruct (Nat.eq_dec (size (lengths (l :: inputs))) 0) as [E0|]; [|lia].
    rewrite E', E0 in H. cbn [Nat.mul] in H. discriminate.
Qed.

(** ---- the rows ---- *)

(** Entry k of row r is found in the array of the coordinates one after the other. *)
Theorem data_rows : forall inputs out ny xt xl, structure_data inputs out ny = Some (xt, xl) ->
  let n := length inputs in let N := size (map (@length R) inputs) in
  shp xt = [N; n] /\
  forall r k, (r < N)%nat -> (k < n)%nat ->
    get xt [r; k] = coordinate inputs (unravel (map (@length R) inputs) ((r * n + k) mod N)) ((r * n + k) / N).
Proof.
  intros inputs out ny xt xl H n N.
  destruct (structure_inv _ _ _ _ _ H) as (H1 & H2 & H3 & H4).
  destruct (structure_some inputs out ny H1 H2 H3 H4) as (lo & hi & xl' & E & _).
  rewrite H in E. inversion E; subst xt xl'. split; [reflexivity|].
  intros r k Hr Hk. unfold get. cbn [shp dat ravel size].
  replace (r * (length inputs * 1) + (k * 1 + 0))%nat with (r * n + k)%nat by (unfold n; lia).
  unfold meshgrid, of_fun. cbn [dat unravel]. fold (lengths inputs). reflexivity.
Qed.

Theorem data_one_input : forall l out ny xt xl, structure_data [l] out ny = Some (xt, xl) ->
  rows_are_points [l] xt.
Proof.
  intros l out ny xt xl H idx Hi k Hk. destruct (data_rows _ _ _ _ _ H) as [_ HR].
  cbn [length map] in *. rewrite HR; [|now apply ravel_lt|assumption].
  replace k with 0%nat by lia. rewrite Nat.mul_1_r, Nat.add_0_r.
  pose proof (ravel_lt _ _ Hi) as Hlt. rewrite Nat.mod_small, Nat.div_small by assumption.
  now rewrite unravel_ravel.
Qed.

Lemma nth_constants : forall ns q k, (k < length ns)%nat ->
  nth k (map (fun e => repeat (INR (fst e)) (snd e)) (combine (seq q (length ns)) ns)) [] =
  repeat (INR (q + k)) (nth k ns 0%nat).
Proof.
  induction ns as [|n ns IH]; intros q [|k] H; cbn [length] in H; try lia.
  - cbn [length seq combine map nth fst snd]. now rewrite Nat.add_0_r.
  - cbn [length seq combine map nth]. rewrite IH by lia. now rewrite Nat.add_succ_r.
Qed.

(** Two or more inputs and two or more points: some inputs, one constant each, for
    which the first row is no grid point at all. *)
Theorem data_refuted : forall ns, (2 <= length ns)%nat -> (2 <= size ns)%nat ->
  exists inputs xt xl, map (@length R) inputs = ns /\
    structure_data inputs ns 1 = Some (xt, xl) /\
    forall idx, inb ns idx -> ~ row_is inputs xt 0 idx.
Proof.
  intros ns Hn HN.
  set (inputs := map (fun e => repeat (INR (fst e)) (snd e)) (combine (seq 0 (length ns)) ns)).
  assert (EL : map (@length R) inputs = ns).
  { unfold inputs. rewrite map_map. cbn beta. generalize 0%nat. clear.
    induction ns as [|n ns IH]; intros q; [reflexivity|]. cbn [length seq combine map fst snd].
    rewrite repeat_length. now rewrite IH. }
  assert (Elen : length inputs = length ns) by (rewrite <- EL; now rewrite map_length).
  destruct (structure_some inputs ns 1) as (lo & hi & xl & E & _); unfold lengths; rewrite ?EL.
  - lia.
  - intros E0. rewrite E0 in Elen. cbn in Elen. lia.
  - lia.
  - apply Nat.div_1_r.
  - exists inputs. eexists. exists xl. split; [exact EL|]. split; [exact E|].
    intros idx Hi HR. destruct (data_rows _ _ _ _ _ E) as [_ HD]. rewrite EL in HD.
    specialize (HD 0%nat 1%nat ltac:(lia) ltac:(lia)). rewrite (HR 1%nat) in HD by lia.
    rewrite Nat.mul_0_l, Nat.add_0_l, Nat.div_small, Nat.mod_small in HD by lia.
    unfold coordinate, inputs in HD. rewrite !nth_constants in HD by lia. cbn [Nat.add] in HD.
    rewrite (nth_indep _ 0 (INR 1)) in HD.
    2:{ rewrite repeat_length. apply inb_nth; [assumption|lia]. }
    rewrite nth_repeat in HD.
    assert (Hz : forall n m, nth n (repeat (INR 0) m) 0 = 0).
    { intros n m. cbn [INR]. now rewrite nth_repeat. }
    rewrite Hz in HD. cbn in HD. lra.
Qed.

(** ---- the limits ---- *)

(** Every entry of the data is a value of an input, and conversely. *)
Lemma data_values : forall inputs x, inputs <> [] -> (0 < size (lengths inputs))%nat ->
  In x (map (dat (meshgrid inputs)) (seq 0 (size (lengths inputs) * (length inputs * 1)))) <->
  exists l, In l inputs /\ In x l.
Proof.
  intros inputs x Hne Hpos. split.
  - intros H. apply in_map_iff in H. destruct H as (j & <- & Hj). apply in_seq in Hj.
    unfold meshgrid, of_fun. cbn [dat unravel]. fold (lengths inputs).
    set (N := size (lengths inputs)) in *.
    assert (Hq : (j / N < length inputs)%nat) by (apply Nat.div_lt_upper_bound; lia).
    exists (nth (j / N) inputs []). split; [now apply nth_In|]. apply nth_In.
    assert (HI : inb (lengths inputs) (unravel (lengths inputs) (j mod N))).
    { apply unravel_inb. apply Nat.mod_upper_bound. lia. }
    pose proof HI as HI'. apply (proj1 (inb_nth _ _)) in HI'. destruct HI' as [_ HI'].
    specialize (HI' (j / N)%nat). unfold lengths in HI' at 1 3. rewrite map_length in HI'.
    specialize (HI' Hq). change 0%nat with (length (@nil R)) in HI' at 2. rewrite map_nth in HI'. exact HI'.
  - intros (l & Hl & Hx). apply In_nth with (d := []) in Hl. destruct Hl as (k & Hk & El).
    apply In_nth with (d := 0) in Hx. destruct Hx as (i & Hi & Ex). subst l x.
    set (N := size (lengths inputs)) in *.
    (* the grid point that is zero but for coordinate k *)
    set (idx := map (fun q => if Nat.eqb q k then i else 0%nat) (seq 0 (length inputs))).
    assert (HB : inb (lengths inputs) idx).
    { apply inb_nth. unfold lengths, idx. rewrite !map_length, seq_length. split; [reflexivity|].
      intros q Hq. rewrite nth_indep with (d' := (fun q => if Nat.eqb q k then i else 0%nat) 0%nat) by now rewrite map_length, seq_length.
      rewrite (map_nth (fun q => if Nat.eqb q k then i else 0%nat)). rewrite seq_nth by assumption. cbn [Nat.add].
      change 0%nat with (length (@nil R)) at 2. rewrite map_nth.
      destruct (Nat.eqb_spec q k) as [->|]; [assumption|].
      assert (Hz : forall s, (0 < size s)%nat -> forall p, (p < length s)%nat -> (0 < nth p s 0)%nat).
      { clear. induction s as [|a s IH]; intros Hs p Hp; [cbn in Hp; lia|]. cbn [size] in Hs.
        destruct p as [|p]; cbn [nth]; [nia|]. apply IH; [nia|cbn in Hp; lia]. }
      specialize (Hz (lengths inputs) Hpos q). unfold lengths in Hz. rewrite map_length in Hz. specialize (Hz Hq).
      change 0%nat with (length (@nil R)) in Hz at 2. now rewrite map_nth in Hz. }
    apply in_map_iff. exists (k * N + ravel (lengths inputs) idx)%nat.
    pose proof (ravel_lt _ _ HB) as Hlt. split.
    + unfold meshgrid, of_fun. cbn [dat unravel]. fold (lengths inputs).
      fold N. rewrite Nat.div_add_l by lia. rewrite (Nat.div_small (ravel _ _)) by assumption.
      rewrite Nat.add_0_r. replace (k * N + ravel (lengths inputs) idx)%nat with (ravel (lengths inputs) idx + k * N)%nat by lia.
      rewrite Nat.mod_add, Nat.mod_small by lia. rewrite unravel_ravel by assumption.
      f_equal. unfold idx. rewrite nth_indep with (d' := (fun q => if Nat.eqb q k then i else 0%nat) 0%nat) by now rewrite map_length, seq_length.
      rewrite (map_nth (fun q => if Nat.eqb q k then i else 0%nat)). rewrite seq_nth by assumption. cbn [Nat.add].
      now rewrite Nat.eqb_refl.
    + apply in_seq. nia.
Qed.

(** The limits of every input are the least and the greatest value of all inputs. *)
Theorem data_limits : forall inputs out ny xt xl, structure_data inputs out ny = Some (xt, xl) ->
  forall k, (k < length inputs)%nat ->
    least (get xl [k; 0%nat]) (concat inputs) /\ greatest (get xl [k; 1%nat]) (concat inputs).
Proof.
  intros inputs out ny xt xl H k Hk.
  destruct (structure_inv _ _ _ _ _ H) as (H1 & H2 & H3 & H4).
  destruct (structure_some inputs out ny H1 H2 H3 H4) as (lo & hi & xl' & E & Elo & Ehi & Hl).
  rewrite H in E. inversion E; subst xt xl'. destruct (Hl k Hk) as [-> ->].
  apply reduced_min in Elo. apply reduced_max in Ehi. cbn [shp size dat] in Elo, Ehi.
  assert (HV : forall x, In x (concat inputs) <->
    In x (map (dat (meshgrid inputs)) (seq 0 (size (lengths inputs) * (length inputs * 1))))).
  { intros x. rewrite data_values by assumption. rewrite in_concat. reflexivity. }
  destruct Elo as [A1 A2]. destruct Ehi as [B1 B2].
  split; (split; [now apply HV|]); intros x Hx; [apply A2|apply B2]; now apply HV.
Qed.

Theorem data_limits_refuted : exists inputs xt xl,
  structure_data inputs [2; 2]%nat 1 = Some (xt, xl) /\ ~ limits_are_ranges inputs xl.
Proof.
  destruct (structure_some [[0; 1]; [5; 6]] [2; 2]%nat 1) as (lo & hi & xl & E & _); try (cbn; lia).
  - discriminate.
  - exists [[0; 1]; [5; 6]]. eexists. exists xl. split; [exact E|]. intros HL.
    destruct (data_limits _ _ _ _ _ E 1%nat ltac:(cbn; lia)) as [[_ A] _].
    destruct (HL 1%nat ltac:(cbn; lia)) as [[B _] _]. cbn [nth] in B.
    specialize (A 0 (or_introl eq_refl)). destruct B as [B|[B|[]]]; rewrite <- B in A; lra.
Qed.

(** The data of two inputs with two values each: the second row mixes points. *)
Example data_case : exists xt xl,
  structure_data [[0; 1]; [5; 6]] [2; 2; 3]%nat 3 = Some (xt, xl) /\
  get xt [0; 0]%nat = 0 /\ get xt [0; 1]%nat = 0 /\ get xt [1; 0]%nat = 1 /\ get xt [1; 1]%nat = 1 /\
  get xt [2; 0]%nat = 5 /\ get xt [2; 1]%nat = 6.
Proof.
  destruct (structure_some [[0; 1]; [5; 6]] [2; 2; 3]%nat 3) as (lo & hi & xl & E & _); try (cbn; lia).
  - discriminate.
  - eexists. exists xl. split; [exact E|].
    destruct (data_rows _ _ _ _ _ E) as [_ HD]. cbn [length map size Nat.mul Nat.add] in HD.
    splits; rewrite HD by lia; reflexivity.
Qed.
