(** Indexed assignment. *)
From Coq Require Import Reals Lra Lia Arith List Bool ZArith.
From Verif Require Import PyBase RSum NdArray NdEinsum NdIndex Component CompReorder JacSpec EinsumCalc
  Indexing SpecIndex IndexProofs Setitem SpecSetitem.
Import ListNotations.
Local Open Scope Z_scope.

(** ---- keys ---- *)

Definition ends (s : list nat) (l : list key1) : list key1 :=
  map (fun p => from_end (fst p) (snd p)) (combine s l).

Lemma from_end_plain : forall n k, is_plain k -> is_plain (from_end n k).
Proof.
  intros n [z|[a [b|] st]| | |] H; cbn in *; auto. destruct (b <? 0); exact I.
Qed.

Lemma ends_plain : forall s l, Forall is_plain l -> Forall is_plain (ends s l).
Proof.
  unfold ends. induction s as [|n s IH]; intros [|k l] H; cbn [combine map]; try constructor.
  - inversion_clear H. now apply from_end_plain.
  - apply IH. now inversion_clear H.
Qed.

Lemma ends_length : forall s l, length l = length s -> length (ends s l) = length s.
Proof. intros s l H. unfold ends. rewrite map_length, combine_length. lia. Qed.

(** the list the code makes of one slice *)
Lemma list_from_end : forall n a b st,
  slice_to_list a b st (Some (Z.of_nat n)) = list_of (entry_bounds (Z.of_nat n) (from_end n (KSlice (Slice a b st)))).
Proof.
  intros n a [b|] st; cbn [from_end].
  - destruct (Z.ltb_spec b 0).
    + cbn [entry_bounds slice_to_tuple list_of sl_start sl_stop sl_step or_else]. unfold slice_to_list. cbn [or_else].
      destruct (Z.ltb_spec b 0); [|lia].
      destruct (Z.ltb_spec (Z.of_nat n + b) 0); [destruct a; reflexivity|].
      destruct a; reflexivity.
    + cbn [entry_bounds slice_to_tuple list_of sl_start sl_stop sl_step or_else]. unfold slice_to_list. cbn [or_else].
      destruct (Z.ltb_spec b 0); [lia|]. destruct a; reflexivity.
  - cbn [entry_bounds slice_to_tuple list_of sl_start sl_stop sl_step or_else]. unfold slice_to_list. cbn [or_else].
    destruct (Z.ltb_spec (Z.of_nat n) 0); [lia|]. destruct a; reflexivity.
Qed.

Lemma list_int : forall n z,
  slice_to_list (Some z) (Some (z + 1)) None (Some (Z.of_nat n)) = list_of (entry_bounds (Z.of_nat n) (KInt z)).
Proof.
  intros n z. cbn [entry_bounds list_of]. unfold slice_to_list. cbn [or_else].
  destruct (Z.ltb_spec (z + 1) 0); [|reflexivity].
  destruct (Z.ltb_spec (Z.of_nat n + (z + 1)) 0); [reflexivity|].
  destruct (py_range z (Z.of_nat n + (z + 1)) 1) as [[|x l]|] eqn:E; try reflexivity.
  assert (Hx : In z (x :: l)).
  { apply (range_In _ _ _ _ E). apply reaches_start with (e := x). apply (range_In _ _ _ _ E). now left. }
  destruct (forallb (fun z0 => 0 <=? z0) (x :: l)) eqn:F; [|reflexivity].
  rewrite forallb_forall in F. specialize (F z Hx). apply Z.leb_le in F. lia.
Qed.

(** NumPy reads a negative stop the same way *)
Lemma positions_from_end : forall n k, is_plain k -> entry_within n (from_end n k) ->
  sl_positions n (as_slice (from_end n k)) = sl_positions n (as_slice k).
Proof.
  intros n [z|[a [b|] st]| | |] Hp W; try (exfalso; exact Hp); try reflexivity.
  cbn [from_end] in *. destruct (Z.ltb_spec b 0); [|reflexivity].
  cbn [entry_within sl_start sl_stop sl_step or_else] in W. destruct W as (W & _).
  cbn [as_slice]. unfold sl_positions. cbn [sl_start sl_stop sl_step]. unfold sl_clip.
  destruct (Z.ltb_spec (Z.of_nat n + b) 0); [lia|]. destruct (Z.ltb_spec b 0); [|lia].
  f_equal. f_equal. destruct (or_else st 1 <? 0); lia.
Qed.

Lemma tuple_ends : forall l s i, Forall is_plain l -> length l = length (skipn i s) ->
  tuple_positions s i l = key_positions (zipb (skipn i s) (ends (skipn i s) l)).
Proof.
  induction l as [|k l IH]; intros s i Hp Hl.
  - unfold ends, zipb. now destruct (skipn i s).
  - inversion_clear Hp as [|? ? Hk Hr]. cbn [tuple_positions].
    assert (Hn : exists n, nth_error s i = Some n /\ skipn i s = n :: skipn (S i) s).
    { clear - Hl. revert i Hl. induction s as [|n s IH]; intros [|i] Hl; cbn in *; try discriminate.
      - exists n. auto.
      - apply IH. exact Hl. }
    destruct Hn as (n & En & Es).
    assert (Hl' : length l = length (skipn (S i) s)) by (rewrite Es in Hl; cbn [length] in Hl; lia).
    rewrite En, (IH s (S i) Hr Hl'), Es. unfold ends, zipb, key_positions.
    cbn [combine map fst snd map_opt].
    destruct k as [z|[a b st]| | |]; try (exfalso; exact Hk).
    + cbn [sl_start sl_stop sl_step]. rewrite (list_int n z). reflexivity.
    + cbn [sl_start sl_stop sl_step]. rewrite (list_from_end n a b st). reflexivity.
Qed.

Lemma tuple_length : forall l s i ls, tuple_positions s i l = Some ls -> length ls = length l.
Proof.
  induction l as [|k l IH]; intros s i ls H; cbn [tuple_positions] in H; [now injection H as <-|].
  destruct (nth_error s i); [|discriminate].
  destruct (match k with KInt z => _ | KSlice sl => _ | _ => None end); [|discriminate].
  destruct (slice_to_list _ _ _ _); [|discriminate].
  destruct (tuple_positions s (S i) l) eqn:E; [|discriminate]. injection H as <-. cbn. now rewrite (IH _ _ _ E).
Qed.

Lemma ends_numpy : forall s l, Forall is_plain l -> Forall2 (fun n k => entry_within n (from_end n k)) s l ->
  Forall2 entry_within s (ends s l) /\
  index_positions s (map as_slice (ends s l)) = index_positions s (map as_slice l).
Proof.
  intros s l Hp H. induction H as [|n k s l Hk H IH]; [split; [constructor|reflexivity]|].
  inversion_clear Hp as [|? ? Hk' Hr]. destruct (IH Hr) as [I1 I2]. unfold ends in *.
  cbn [combine map fst snd index_positions]. rewrite (positions_from_end n k Hk' Hk), I2.
  split; [now constructor|reflexivity].
Qed.

Lemma within_ends : forall s l, length l = length s -> Forall2 entry_within s (ends s l) ->
  Forall2 (fun n k => entry_within n (from_end n k)) s l.
Proof.
  unfold ends. induction s as [|n s IH]; intros [|k l] Hl H; try discriminate; [constructor|].
  cbn [combine map fst snd] in H. inversion_clear H. constructor; [assumption|]. apply IH; [cbn in Hl; lia|assumption].
Qed.

(** [t] holds the flat positions given by the lists [ls] *)
Definition gives (s : list nat) (k : key) (t : nd Z) (ls : list (list nat)) : Prop :=
  s <> [] /\ in_range s ls = true /\ index_positions s (map as_slice (key_entries k)) = Some ls /\
  shp t = map (@length nat) ls /\
  forall j, (j < size (shp t))%nat -> dat t j = Z.of_nat (ravel s (pick ls (unravel (shp t) j))).

Definition all_below (s : list nat) (t : nd Z) : bool :=
  forallb (fun z => z <? Z.of_nat (size s)) (map (dat t) (seq 0 (size (shp t)))).

Lemma below_spec : forall s t, all_below s t = true <->
  forall j, (j < size (shp t))%nat -> dat t j < Z.of_nat (size s).
Proof.
  intros s t. unfold all_below. rewrite forallb_forall. split.
  - intros H j Hj. apply Z.ltb_lt. apply H. apply in_map. apply in_seq. lia.
  - intros H z Hz. apply in_map_iff in Hz. destruct Hz as (j & <- & Hj). apply in_seq in Hj.
    apply Z.ltb_lt, H. lia.
Qed.

Lemma gives_below : forall s k t ls, gives s k t ls -> all_below s t = true.
Proof.
  intros s k t ls (Hs & Hi & _ & Hsh & Hd). apply below_spec. intros j Hj. rewrite Hd by assumption.
  apply inj_lt, ravel_lt, pick_inb; [assumption|]. rewrite <- Hsh. now apply unravel_inb.
Qed.

Lemma targets_sound : forall s k t, fitting s k -> key_targets s k = Some t -> all_below s t = true ->
  assign_within s (key_entries k) /\ exists ls, gives s k t ls.
Proof.
  intros s k t [Hp Hf] Hk Hb. destruct k as [k1|l]; cbn [key_entries] in *.
  - destruct Hf as [Hs Hz]. destruct s as [|n [|n' s]]; try discriminate.
    inversion_clear Hp as [|? ? Hk1 _]. cbn [key_targets] in Hk.
    assert (HW : forall ls1, list_of (entry_bounds (Z.of_nat n) (from_end n k1)) = Some ls1 ->
              shp t = [length ls1] -> (forall j, (j < length ls1)%nat -> dat t j = Z.of_nat (nth j ls1 0%nat)) ->
              assign_within [n] [k1] /\ exists ls, gives [n] (KOne k1) t ls).
    { intros l1 E1 Hsh Hd.
      assert (Hbl : forallb (fun i => Nat.ltb i n) l1 = true).
      { apply forallb_forall. intros i Hi. apply Nat.ltb_lt. apply In_nth with (d := 0%nat) in Hi.
        destruct Hi as (j & Hj & <-). rewrite below_spec in Hb. specialize (Hb j).
        rewrite Hsh in Hb. cbn [size] in Hb. rewrite Nat.mul_1_r in Hb. specialize (Hb Hj).
        rewrite Hd in Hb by assumption. cbn [size] in Hb. lia. }
      assert (W : entry_within n (from_end n k1)).
      { apply entry_list; [now apply from_end_plain|]. exists l1. split; assumption. }
      split; [split; [discriminate|constructor; [assumption|constructor]]|].
      exists [l1]. unfold gives. cbn [key_entries map index_positions in_range].
      rewrite <- (positions_from_end n k1 Hk1 W), (entry_numpy n _ l1 W (from_end_plain n k1 Hk1) E1), Hbl.
      splits; try reflexivity; try discriminate.
      - exact Hsh.
      - rewrite Hsh. cbn [size]. intros j Hj. rewrite Nat.mul_1_r in Hj. rewrite Hd by assumption. f_equal.
        cbn [unravel ravel pick size]. rewrite Nat.div_1_r. lia. }
    destruct k1 as [z|[a b st]| | |]; try (exfalso; exact Hk1).
    + injection Hk as <-. apply (HW [Z.to_nat z]).
      * cbn [from_end]. apply list_of_spec. split; [lia|]. exists [z]. splits; try discriminate.
        -- unfold py_range. cbn [or_else]. replace (1 =? 0) with false by reflexivity. unfold range_len.
           replace (0 <? 1) with true by reflexivity. replace ((z + 1 - z + 1 - 1) / 1) with 1 by (rewrite Z.div_1_r; lia).
           change (Z.to_nat 1) with 1%nat. cbn [seq map]. do 2 f_equal. lia.
        -- intros q [->|[]]. assumption.
        -- reflexivity.
      * reflexivity.
      * intros j Hj. cbn in Hj. assert (j = 0)%nat by lia. subst j. cbn. lia.
    + cbn [sl_start sl_stop sl_step] in Hk. rewrite (list_from_end n a b st) in Hk.
      destruct (list_of _) as [l1|] eqn:E1; [|discriminate]. injection Hk as <-.
      apply (HW l1 eq_refl); reflexivity.
  - cbn [key_targets] in Hk. destruct (tuple_positions s 0 l) as [ls|] eqn:E; [|discriminate].
    unfold mesh_ravel in Hk. destruct (negb (Nat.eqb (length s) 0) && in_range s ls) eqn:Ei; [|discriminate].
    injection Hk as <-. apply andb_true_iff in Ei. destruct Ei as [Hs Hi].
    assert (Hl : length l = length s) by (rewrite <- (tuple_length _ _ _ _ E); now apply in_range_length).
    assert (Hs' : s <> []) by (intros ->; discriminate).
    rewrite (tuple_ends l s 0 Hp Hl) in E. cbn [skipn] in E.
    assert (Hpe : Forall is_plain (ends s l)) by (now apply ends_plain).
    assert (W : Forall2 entry_within s (ends s l)).
    { apply zip_positions; [now apply ends_length|assumption|]. exists ls. split; assumption. }
    destruct (zip_numpy s (ends s l) ls Hpe W E) as [N1 _].
    assert (W' := within_ends s l Hl W). destruct (ends_numpy s l Hp W') as [_ N2].
    split; [split; assumption|]. exists ls. unfold gives. splits; auto.
    cbn [key_entries]. congruence.
Qed.

Lemma targets_complete : forall s k, fitting s k -> assign_within s (key_entries k) ->
  exists t, key_targets s k = Some t /\ all_below s t = true.
Proof.
  intros s k [Hp Hf] [Hs W]. destruct k as [k1|l]; cbn [key_entries] in *.
  - destruct Hf as [Hl Hz]. destruct s as [|n [|n' s]]; try discriminate.
    inversion W as [|? ? ? ? W1 _]; subst. clear W. inversion_clear Hp as [|? ? Hk1 _].
    assert (W2 := W1). apply entry_list in W2; [|now apply from_end_plain].
    destruct W2 as (l1 & E1 & Hb). cbn [key_targets].
    destruct k1 as [z|[a b st]| | |]; try (exfalso; exact Hk1).
    + eexists. split; [reflexivity|]. apply below_spec. intros j _. cbn in *. lia.
    + cbn [sl_start sl_stop sl_step]. rewrite (list_from_end n a b st), E1. cbn [option_map].
      eexists. split; [reflexivity|]. apply below_spec. cbn [shp dat size]. intros j Hj.
      rewrite forallb_forall in Hb. assert (Hin : In (nth j l1 0%nat) l1) by (apply nth_In; lia).
      apply Hb in Hin. apply Nat.ltb_lt in Hin. lia.
  - destruct (ends_numpy s l Hp W) as [W2 _].
    assert (Hl : length l = length s) by (symmetry; exact (Forall2_len _ _ _ _ _ W)).
    apply zip_positions in W2; [|now apply ends_length|now apply ends_plain].
    destruct W2 as (ls & E & Hi). cbn [key_targets]. rewrite (tuple_ends l s 0 Hp Hl). cbn [skipn].
    rewrite E. unfold mesh_ravel. rewrite Hi. destruct s as [|n s]; [congruence|].
    cbn [length Nat.eqb negb andb option_map]. eexists. split; [reflexivity|].
    apply below_spec. intros j Hj. cbn [np_map shp dat of_fun] in *. apply inj_lt, ravel_lt, pick_inb; [assumption|].
    now apply unravel_inb.
Qed.

(** ---- the flat positions of a key ---- *)

Definition flat (s : list nat) (ls : list (list nat)) : list nat :=
  map (fun j => ravel s (pick ls (unravel (map (@length nat) ls) j))) (seq 0 (size (map (@length nat) ls))).

Lemma flat_In : forall s ls z, In z (flat s ls) <->
  exists idx, inb (map (@length nat) ls) idx /\ z = ravel s (pick ls idx).
Proof.
  intros s ls z. unfold flat. rewrite in_map_iff. split.
  - intros (j & <- & Hj). apply in_seq in Hj. eexists. split; [|reflexivity]. apply unravel_inb. lia.
  - intros (idx & Hi & ->). exists (ravel (map (@length nat) ls) idx). split.
    + now rewrite unravel_ravel.
    + apply in_seq. pose proof (ravel_lt _ _ Hi). lia.
Qed.

Lemma flat_names : forall s k ls z, index_positions s (map as_slice (key_entries k)) = Some ls ->
  (In z (flat s ls) <-> names_position s k z).
Proof.
  intros s k ls z H. rewrite flat_In. unfold names_position. split.
  - intros (idx & Hi & E). exists ls, idx. auto.
  - intros (ls' & idx & H' & Hi & E). rewrite H in H'. injection H' as <-. exists idx. auto.
Qed.

Lemma range_NoDup : forall a b st l, py_range a b st = Some l -> NoDup l.
Proof.
  intros a b st l H. unfold py_range in H. destruct (Z.eqb_spec st 0); [discriminate|]. injection H as <-.
  apply FinFun.Injective_map_NoDup; [|apply seq_NoDup]. intros x y E. nia.
Qed.

Lemma NoDup_map_in : forall (A B : Type) (f : A -> B) l,
  (forall x y, In x l -> In y l -> f x = f y -> x = y) -> NoDup l -> NoDup (map f l).
Proof.
  intros A B f. induction l as [|x l IH]; intros Hf ND; [constructor|]. inversion_clear ND as [|? ? Hn ND'].
  cbn. constructor.
  - intros Hin. apply in_map_iff in Hin. destruct Hin as (y & E & Hy). apply Hn.
    rewrite (Hf x y); auto; [now left|now right].
  - apply IH; [|assumption]. intros a b Ha Hb. apply Hf; now right.
Qed.

Lemma positions_NoDup : forall n s l, sl_positions n s = Some l -> NoDup l.
Proof.
  intros n s l H. unfold sl_positions in H. set (st := or_else (sl_step s) 1) in *.
  match type of H with option_map _ (py_range ?a ?b _) = _ => set (a0 := a) in *; set (b0 := b) in * end.
  destruct (py_range a0 b0 st) as [zl|] eqn:E; [|discriminate]. injection H as <-.
  apply NoDup_map_in; [|exact (range_NoDup _ _ _ _ E)]. intros x y Hx Hy Hxy.
  apply (range_In _ _ _ _ E) in Hx. apply (range_In _ _ _ _ E) in Hy.
  assert (Hb : forall e, reaches a0 b0 st e -> 0 <= e).
  { assert (Hlow : 0 < st -> 0 <= a0).
    { intros Hst. unfold a0, sl_clip. destruct (Z.ltb_spec st 0); [lia|]. destruct (sl_start s) as [z|]; [|lia].
      destruct (Z.ltb_spec z 0); lia. }
    assert (Hlow' : st < 0 -> -1 <= b0).
    { intros Hst. unfold b0, sl_clip. destruct (Z.ltb_spec st 0); [|lia]. destruct (sl_stop s) as [z|]; [|lia].
      destruct (Z.ltb_spec z 0); lia. }
    intros e (q & Hq & -> & [[H1 _]|[H1 H2]]); [specialize (Hlow H1); nia|specialize (Hlow' H1); lia]. }
  apply Hb in Hx. apply Hb in Hy. lia.
Qed.

Lemma index_NoDup : forall s l ls, index_positions s l = Some ls -> Forall (@NoDup nat) ls.
Proof.
  induction s as [|n s IH]; intros [|sl l] ls H; cbn [index_positions] in H; try discriminate.
  - injection H as <-. constructor.
  - destruct (sl_positions n sl_all) as [p|] eqn:E1; [|discriminate].
    destruct (index_positions s []) as [r|] eqn:E2; [|discriminate]. injection H as <-.
    constructor; [exact (positions_NoDup _ _ _ E1)|exact (IH _ _ E2)].
  - destruct (sl_positions n sl) as [p|] eqn:E1; [|discriminate].
    destruct (index_positions s l) as [r|] eqn:E2; [|discriminate]. injection H as <-.
    constructor; [exact (positions_NoDup _ _ _ E1)|exact (IH _ _ E2)].
Qed.

Lemma pick_inj : forall ls idx idx', Forall (@NoDup nat) ls ->
  inb (map (@length nat) ls) idx -> inb (map (@length nat) ls) idx' -> pick ls idx = pick ls idx' -> idx = idx'.
Proof.
  induction ls as [|p ls IH]; intros [|i idx] [|i' idx'] ND H H' E; cbn in *; try tauto.
  inversion_clear ND as [|? ? N1 N2]. destruct H as [H1 H2], H' as [H1' H2'].
  injection E as E1 E2. f_equal; [|now apply IH].
  apply (proj1 (NoDup_nth p 0%nat) N1); assumption.
Qed.

Lemma flat_NoDup : forall s k ls, in_range s ls = true ->
  index_positions s (map as_slice (key_entries k)) = Some ls -> NoDup (flat s ls).
Proof.
  intros s k ls Hi H. unfold flat. set (sh := map (@length nat) ls). apply NoDup_map_in; [|apply seq_NoDup].
  intros x y Hx Hy E. apply in_seq in Hx. apply in_seq in Hy.
  assert (Ix : inb sh (unravel sh x)) by (apply unravel_inb; lia).
  assert (Iy : inb sh (unravel sh y)) by (apply unravel_inb; lia).
  apply ravel_inj in E; [|apply pick_inb; assumption|apply pick_inb; assumption].
  apply pick_inj in E; [|exact (index_NoDup _ _ _ H)|assumption|assumption].
  rewrite <- (ravel_unravel sh x), <- (ravel_unravel sh y) by lia. now rewrite E.
Qed.

Lemma flat_lt : forall s ls z, in_range s ls = true -> In z (flat s ls) -> (z < size s)%nat.
Proof.
  intros s ls z Hi H. apply flat_In in H. destruct H as (idx & Hb & ->). now apply ravel_lt, pick_inb.
Qed.

(** ---- what is stored ---- *)

Definition rep (s : list nat) (a : assignment) (t : target) : Prop :=
  exists ls, s <> [] /\ in_range s ls = true /\
    index_positions s (map as_slice (key_entries (as_key a))) = Some ls /\
    tg_name t = as_name a /\ tg_shape t = as_shape a /\ as_shape a = map (@length nat) ls /\
    tg_idx t = map Z.of_nat (flat s ls).

Definition stored (s : list nat) (l : list assignment) (o : out_var) : Prop :=
  ov_shape o = s /\ Forall2 (rep s) l (ov_tgts o) /\
  ov_checked o = flat_map tg_idx (ov_tgts o) /\ NoDup (ov_checked o) /\
  (ov_built o = true <-> l <> []).

Lemma fresh_stored : forall s, stored s [] (fresh_out s).
Proof.
  intros s. unfold stored, fresh_out. cbn. splits; try reflexivity; try constructor; try discriminate. congruence.
Qed.

Lemma zmem_In : forall z l, zmem z l = true <-> In z l.
Proof.
  intros z l. unfold zmem. rewrite existsb_exists. split.
  - intros (x & H & E). apply Z.eqb_eq in E. now subst.
  - intros H. exists z. split; [assumption|apply Z.eqb_refl].
Qed.

Lemma gives_idx : forall s k t ls, gives s k t ls ->
  map (dat t) (seq 0 (size (shp t))) = map Z.of_nat (flat s ls).
Proof.
  intros s k t ls (_ & _ & _ & Hsh & Hd). unfold flat. rewrite map_map, <- Hsh. apply map_ext_in.
  intros j Hj. apply in_seq in Hj. apply Hd. lia.
Qed.

Lemma rep_names : forall s l ts z, Forall2 (rep s) l ts ->
  (In (Z.of_nat z) (flat_map tg_idx ts) <-> exists a, In a l /\ names_position s (as_key a) z).
Proof.
  intros s l ts z H. induction H as [|a t l ts Hr H IH]; cbn [flat_map].
  - split; [intros []|intros (a & [] & _)].
  - rewrite in_app_iff, IH. destruct Hr as (ls & _ & _ & Hx & _ & _ & _ & ->).
    assert (Q : In (Z.of_nat z) (map Z.of_nat (flat s ls)) <-> names_position s (as_key a) z).
    { rewrite <- (flat_names s (as_key a) ls z Hx), in_map_iff. split.
      - intros (y & E & Hy). apply Nat2Z.inj in E. now subst.
      - intros Hz. exists z. auto. }
    rewrite Q. split.
    + intros [H1|(b & Hb & H1)]; [exists a; split; [now left|assumption]|exists b; split; [now right|assumption]].
    + intros (b & [->|Hb] & H1); [now left|right; exists b; auto].
Qed.

Lemma rep_used : forall s l o e, Forall2 (rep s) l (ov_tgts o) ->
  (name_used o e = true <-> exists a, In a l /\ as_name a = e).
Proof.
  intros s l o e H. unfold name_used. induction H as [|a t l ts Hr H IH]; cbn [existsb].
  - split; [discriminate|intros (a & [] & _)].
  - rewrite orb_true_iff, IH. destruct Hr as (ls & _ & _ & _ & -> & _). rewrite Nat.eqb_eq. split.
    + intros [E|(b & Hb & E)]; [exists a; split; [now left|assumption]|exists b; split; [now right|assumption]].
    + intros (b & [->|Hb] & E); [now left|right; exists b; auto].
Qed.

(** one assignment *)
Lemma setitem_step : forall s l o a o' r, stored s l o -> fitting s (as_key a) ->
  setitem o (as_key a) (as_name a) (as_shape a) = (o', r) ->
  (r = Done <-> assign_within s (key_entries (as_key a)) /\ part_shape s (as_key a) (as_shape a) /\
     (forall b, In b l -> as_name b <> as_name a) /\
     (forall b z, In b l -> names_position s (as_key b) z -> ~ names_position s (as_key a) z)) /\
  (r = Done -> stored s (l ++ [a]) o') /\ (r = Rejected -> stored s l o').
Proof.
  intros s l o a o' r (Hs & Hrep & Hc & ND & Hbu) Hf H. unfold setitem in H. rewrite Hs in H.
  assert (St : stored s l (OutVar s (ov_deps o ++ [as_name a]) (ov_tgts o) (ov_checked o) (ov_built o))).
  { unfold stored. cbn [ov_shape ov_tgts ov_checked ov_built]. splits; try reflexivity; try assumption; apply Hbu. }
  destruct (key_targets s (as_key a)) as [t|] eqn:Ek.
  2: { injection H as <- <-. splits; try discriminate; [|intros _; exact St]. split; [discriminate|].
       intros (W & _). destruct (targets_complete s (as_key a) Hf W) as (t & E & _). congruence. }
  fold (all_below s t) in H.
  destruct (all_below s t) eqn:Eb.
  2: { assert (Q : (o', r) = (OutVar s (ov_deps o ++ [as_name a]) (ov_tgts o) (ov_checked o) (ov_built o), Rejected))
         by (destruct (list_eq_dec Nat.eq_dec (shp t) (as_shape a)); auto).
       injection Q as -> ->. splits; try discriminate; [|intros _; exact St]. split; [discriminate|].
       intros (W & _). destruct (targets_complete s (as_key a) Hf W) as (t' & E & E'). congruence. }
  destruct (targets_sound s (as_key a) t Hf Ek Eb) as [W (ls & G)].
  pose proof (gives_idx _ _ _ _ G) as Ei. destruct G as (Hne & Hi & Hx & Hsh & Hd).
  assert (Hps : part_shape s (as_key a) (as_shape a) <-> shp t = as_shape a).
  { unfold part_shape. split.
    - intros (ls' & E & ->). rewrite Hx in E. injection E as <-. exact Hsh.
    - intros E. exists ls. split; [assumption|congruence]. }
  destruct (list_eq_dec Nat.eq_dec (shp t) (as_shape a)) as [Esh|Esh].
  2: { injection H as <- <-. splits; try discriminate; [|intros _; exact St]. split; [discriminate|].
       intros (_ & P & _). apply Hps in P. contradiction. }
  rewrite Ei in H. destruct (name_used o (as_name a)) eqn:En.
  { injection H as <- <-. splits; try discriminate; [|intros _; exact St]. split; [discriminate|].
    intros (_ & _ & Hn & _). apply (rep_used s l o (as_name a) Hrep) in En. destruct En as (b & Hb & E).
    elim (Hn b Hb E). }
  assert (Hno : forall b, In b l -> as_name b <> as_name a).
  { intros b Hb E. assert (T : name_used o (as_name a) = true) by (apply (rep_used s l o _ Hrep); exists b; auto). congruence. }
  destruct (existsb (fun z => zmem z (ov_checked o)) (map Z.of_nat (flat s ls))) eqn:Eo.
  - injection H as <- <-. splits; try discriminate. split; [discriminate|].
    intros (_ & _ & _ & Hdis). exfalso. apply existsb_exists in Eo. destruct Eo as (z & Hz & Hm).
    apply zmem_In in Hm. apply in_map_iff in Hz. destruct Hz as (y & <- & Hy).
    rewrite Hc, (rep_names s l (ov_tgts o) y Hrep) in Hm. destruct Hm as (b & Hb & Hn).
    apply (Hdis b y Hb Hn). now apply (flat_names s (as_key a) ls y Hx).
  - injection H as <- <-.
    assert (Hdis : forall z, In z (map Z.of_nat (flat s ls)) -> ~ In z (ov_checked o)).
    { intros z Hz Hin. assert (T : existsb (fun z => zmem z (ov_checked o)) (map Z.of_nat (flat s ls)) = true).
      { apply existsb_exists. exists z. split; [assumption|now apply zmem_In]. } congruence. }
    splits; try discriminate.
    + split; [|reflexivity]. intros _. splits; try assumption; [now apply Hps|].
      intros b z Hb Hn Hna. apply (Hdis (Z.of_nat z)).
      * apply in_map. now apply (flat_names s (as_key a) ls z Hx).
      * rewrite Hc. apply (rep_names s l (ov_tgts o) z Hrep). exists b. auto.
    + intros _. unfold stored. cbn [ov_shape ov_tgts ov_checked ov_built]. splits.
      * reflexivity.
      * apply Forall2_app; [assumption|]. constructor; [|constructor]. exists ls. cbn [tg_name tg_shape tg_idx].
        splits; try assumption; try reflexivity. congruence.
      * rewrite flat_map_app, Hc. cbn [flat_map tg_idx]. now rewrite app_nil_r.
      * apply NoDup_app_intro; [assumption| |].
        -- apply FinFun.Injective_map_NoDup; [intros x y; apply Nat2Z.inj|]. exact (flat_NoDup s (as_key a) ls Hi Hx).
        -- intros z Hz Hz'. exact (Hdis z Hz' Hz).
      * split; [intros _; destruct l; discriminate|reflexivity].
Qed.

Lemma setitems_stored : forall hs s l o o' rs, stored s l o ->
  Forall (fun a => fitting s (as_key a)) hs -> setitems o hs = (o', rs) -> ~ In Overlap rs ->
  stored s (l ++ done hs rs) o'.
Proof.
  induction hs as [|a hs IH]; intros s l o o' rs St Hf H Hno; cbn [setitems] in H.
  - injection H as <- <-. cbn [done]. now rewrite app_nil_r.
  - inversion_clear Hf as [|? ? Hfa Hfr].
    destruct (setitem o (as_key a) (as_name a) (as_shape a)) as [o1 r] eqn:E1.
    destruct (setitems o1 hs) as [o2 rs'] eqn:E2. injection H as <- <-.
    destruct (setitem_step s l o a o1 r St Hfa E1) as (_ & HD & HR).
    assert (Hno' : ~ In Overlap rs') by (intros Hin; apply Hno; now right).
    cbn [done]. destruct r.
    + specialize (IH s _ o1 o2 rs' (HD eq_refl) Hfr E2 Hno'). now rewrite <- app_assoc in IH.
    + exact (IH s _ o1 o2 rs' (HR eq_refl) Hfr E2 Hno').
    + elim Hno. now left.
Qed.

(** ---- the component ---- *)

Fixpoint writes (y : nat -> R) (idxs : list (list nat)) (ins : list (nd R)) : nat -> R :=
  match idxs, ins with
  | idx :: idxs', x :: ins' => writes (write y idx x) idxs' ins'
  | _, _ => y
  end.

Lemma write_all_writes : forall idxs ins y, Forall2 (fun idx x => size (shp x) = length idx) idxs ins ->
  write_all y idxs ins = Some (writes y idxs ins).
Proof.
  induction idxs as [|idx idxs IH]; intros ins y H; inversion H as [|? x ? ins' H1 H2]; subst; [reflexivity|].
  cbn [write_all writes]. rewrite H1, Nat.eqb_refl. now apply IH.
Qed.

Lemma writes_out : forall idxs ins y z, ~ In z (concat idxs) -> writes y idxs ins z = y z.
Proof.
  induction idxs as [|idx idxs IH]; intros [|x ins] y z H; try reflexivity.
  cbn [writes]. cbn [concat] in H. rewrite in_app_iff in H. rewrite IH by tauto. unfold write.
  replace (mem z idx) with false; [reflexivity|]. symmetry. apply mem_not_In. tauto.
Qed.

Lemma writes_in : forall idxs ins y p idx x z, NoDup (concat idxs) ->
  nth_error idxs p = Some idx -> nth_error ins p = Some x -> In z idx ->
  writes y idxs ins z = dat x (find_pos idx z).
Proof.
  induction idxs as [|i0 idxs IH]; intros ins y p idx x z ND Hp Hx Hz; [destruct p; discriminate|].
  cbn [concat] in ND. destruct ins as [|x0 ins]; [destruct p; discriminate|]. cbn [writes].
  destruct p as [|p]; cbn [nth_error] in Hp, Hx.
  - injection Hp as <-. injection Hx as <-. rewrite writes_out.
    + unfold write. now rewrite (proj2 (mem_In z i0) Hz).
    + intros Hin. apply in_split in Hz. destruct Hz as (l1 & l2 & ->).
      rewrite <- app_assoc in ND. apply NoDup_remove_2 in ND. apply ND.
      apply in_or_app. right. apply in_or_app. now right.
  - eapply IH; eauto. clear - ND. induction i0; [exact ND|]. cbn in ND. inversion ND; auto.
Qed.

Lemma inputs_nth_error : forall ss v p, (p < length ss)%nat ->
  nth_error (inputs_of ss v) p = Some (Nd (nth p ss []) (v p)).
Proof.
  intros ss v p H. unfold inputs_of. rewrite nth_error_map.
  replace (nth_error (seq 0 (length ss)) p) with (Some p); [reflexivity|].
  symmetry. rewrite (nth_error_nth' _ 0%nat) by (rewrite seq_length; assumption). now rewrite seq_nth.
Qed.

Lemma concat_In_nth : forall (idxs : list (list nat)) z, In z (concat idxs) ->
  exists q idx, nth_error idxs q = Some idx /\ In z idx.
Proof.
  intros idxs z H. apply in_concat in H. destruct H as (idx & Hi & Hz).
  apply In_nth_error in Hi. destruct Hi as (q & Hq). exists q, idx. auto.
Qed.

Lemma NoDup_concat_nth : forall (idxs : list (list nat)) p idx, NoDup (concat idxs) -> nth_error idxs p = Some idx -> NoDup idx.
Proof.
  induction idxs as [|i0 idxs IH]; intros [|p] idx ND H; cbn [concat nth_error] in *; try discriminate.
  - injection H as <-. clear - ND. induction i0; [constructor|]. cbn in ND. inversion_clear ND.
    constructor; [|auto]. intros Hin. apply H. apply in_or_app. now left.
  - apply (IH p); [|assumption]. clear - ND. induction i0; [exact ND|]. cbn in ND. inversion ND; auto.
Qed.

(** the derivative of the written array with respect to one expression *)
Lemma writes_jacobian : forall nout idxs ss y0 v p idx, NoDup (concat idxs) ->
  length ss = length idxs -> nth_error idxs p = Some idx -> (forall z, In z idx -> (z < nout)%nat) ->
  exact_sparse nout (length idx) (fun x => writes y0 idxs (inputs_of ss (set_op v p x))) (v p)
    (Coo (length idx) (fun k => nth k idx 0%nat) (fun k => k) (fun _ => 1%R)).
Proof.
  intros nout idxs ss y0 v p idx ND Hl Hp Hlt.
  assert (NDi : NoDup idx) by exact (NoDup_concat_nth _ _ _ ND Hp).
  assert (Hpl : (p < length ss)%nat) by (rewrite Hl; apply nth_error_Some; congruence).
  split.
  - split; cbn [nnz rows cols].
    + intros k Hk. split; [|assumption]. apply Hlt. now apply nth_In.
    + intros k k' _ _ _ E. exact E.
  - apply coo_affine_jacobian with
      (b := fun z => if mem z idx then 0%R else writes y0 idxs (inputs_of ss v) z); cbn [nnz rows cols vals].
    + auto.
    + intros x' z Hz. destruct (mem z idx) eqn:Em.
      * apply mem_In in Em.
        rewrite (writes_in idxs _ y0 p idx (Nd (nth p ss []) x') z ND Hp); [|now rewrite inputs_nth_error, set_op_same|assumption].
        cbn [dat]. rewrite (rsum_single _ _ (find_pos idx z)).
        -- rewrite nth_find_pos by assumption. rewrite Nat.eqb_refl. lra.
        -- now apply find_pos_lt.
        -- intros k Hk Hne. destruct (Nat.eqb_spec (nth k idx 0%nat) z) as [E|]; [|reflexivity].
           exfalso. apply Hne. rewrite <- E. symmetry. now apply find_pos_nth.
      * apply mem_not_In in Em. rewrite rsum_zero.
        2: { intros k Hk. destruct (Nat.eqb_spec (nth k idx 0%nat) z) as [E|]; [|reflexivity].
             exfalso. apply Em. rewrite <- E. now apply nth_In. }
        rewrite Rplus_0_r.
        destruct (in_dec Nat.eq_dec z (concat idxs)) as [Hin|Hout].
        -- destruct (concat_In_nth _ _ Hin) as (q & idq & Hq & Hzq).
           assert (Hqp : q <> p) by (intros ->; rewrite Hp in Hq; injection Hq as <-; contradiction).
           assert (Hql : (q < length ss)%nat) by (rewrite Hl; apply nth_error_Some; congruence).
           rewrite (writes_in idxs _ y0 q idq (Nd (nth q ss []) (v q)) z ND Hq); [|now rewrite inputs_nth_error, set_op_other|assumption].
           rewrite (writes_in idxs _ y0 q idq (Nd (nth q ss []) (v q)) z ND Hq); [reflexivity|now rewrite inputs_nth_error|assumption].
        -- now rewrite !writes_out by assumption.
Qed.

(** ---- C22 ---- *)

Lemma to_of_nat : forall l, map Z.to_nat (map Z.of_nat l) = l.
Proof. intros l. rewrite map_map. rewrite (map_ext _ (fun x => x)); [apply map_id|]. intros x. apply Nat2Z.id. Qed.

Lemma stored_concat : forall ts, concat (map (fun t => map Z.to_nat (tg_idx t)) ts) = map Z.to_nat (flat_map tg_idx ts).
Proof. induction ts as [|t ts IH]; [reflexivity|]. cbn. now rewrite map_app, IH. Qed.

Lemma stored_nonneg : forall s l ts z, Forall2 (rep s) l ts -> In z (flat_map tg_idx ts) ->
  0 <= z /\ (Z.to_nat z < size s)%nat.
Proof.
  intros s l ts z H Hz. induction H as [|a t l ts Hr H IH]; [destruct Hz|]. cbn [flat_map] in Hz.
  apply in_app_iff in Hz. destruct Hz as [Hz|Hz]; [|auto].
  destruct Hr as (ls & _ & Hi & _ & _ & _ & _ & E). rewrite E in Hz. apply in_map_iff in Hz.
  destruct Hz as (y & <- & Hy). split; [lia|]. rewrite Nat2Z.id. exact (flat_lt _ _ _ Hi Hy).
Qed.

Lemma Forall2_nth : forall (A B : Type) (P : A -> B -> Prop) l m p a, Forall2 P l m -> nth_error l p = Some a ->
  exists b, nth_error m p = Some b /\ P a b.
Proof.
  intros A B P l m p a H. revert p. induction H as [|x y l m Hxy H IH]; intros [|p] E; try discriminate.
  - injection E as ->. exists y. auto.
  - apply IH. exact E.
Qed.

Lemma stored_correct : forall s l o y0, stored s l o -> l <> [] ->
  exists c, assembled s y0 (ov_tgts o) = Some c /\ c_ins c = map as_shape l /\ c_out c = s /\
    correct c (assembles s y0 l).
Proof.
  intros s l o y0 (Hs & Hrep & Hc & ND & _) Hl.
  set (ts := ov_tgts o) in *. unfold assembled.
  assert (Hall : forallb (fun t => forallb (fun z => (0 <=? z) && (z <? Z.of_nat (size s))) (tg_idx t)) ts = true).
  { apply forallb_forall. intros t Ht. apply forallb_forall. intros z Hz.
    assert (Hin : In z (flat_map tg_idx ts)) by (apply in_flat_map; exists t; auto).
    destruct (stored_nonneg s l ts z Hrep Hin) as [H1 H2].
    apply andb_true_iff. split; [apply Z.leb_le|apply Z.ltb_lt]; lia. }
  rewrite Hall. set (idxs := map (fun t => map Z.to_nat (tg_idx t)) ts).
  assert (NDc : NoDup (concat idxs)).
  { unfold idxs. rewrite stored_concat. apply NoDup_map_in; [|rewrite <- Hc; exact ND].
    intros x y Hx Hy E. destruct (stored_nonneg s l ts x Hrep Hx). destruct (stored_nonneg s l ts y Hrep Hy). lia. }
  assert (Hsh : map tg_shape ts = map as_shape l).
  { clear - Hrep. induction Hrep as [|a t l ts Hr H IH]; [reflexivity|]. cbn. rewrite IH.
    destruct Hr as (ls & _ & _ & _ & _ & -> & _). reflexivity. }
  assert (Hlen : length idxs = length ts) by (unfold idxs; apply map_length).
  assert (Hne : s <> []).
  { destruct Hrep as [|a t l' ts' Hr H]; [congruence|]. destruct Hr as (ls & Hne & _). exact Hne. }
  assert (Hidx : forall p a t, nth_error l p = Some a -> nth_error ts p = Some t -> rep s a t ->
    exists ls, in_range s ls = true /\ index_positions s (map as_slice (key_entries (as_key a))) = Some ls /\
      as_shape a = map (@length nat) ls /\ nth_error idxs p = Some (flat s ls)).
  { intros p a t Ha Ht (ls & _ & Hi & Hx & _ & _ & Hsa & Hti). exists ls. splits; auto.
    unfold idxs. rewrite nth_error_map, Ht. cbn [option_map]. now rewrite Hti, to_of_nat. }
  assert (Hsz : forall v, Forall2 (fun idx x => size (shp x) = length idx) idxs (inputs_of (map tg_shape ts) v)).
  { intros v. unfold inputs_of. rewrite map_length, Hsh.
    assert (G : forall l0 ts0 l1, l = l1 ++ l0 -> Forall2 (rep s) l0 ts0 ->
       Forall2 (fun idx x => size (shp x) = length idx) (map (fun t => map Z.to_nat (tg_idx t)) ts0)
         (map (fun p => Nd (nth p (map as_shape l) []) (v p)) (seq (length l1) (length ts0)))).
    { intros l0 ts0 l1 El H. revert l1 El. induction H as [|a t l0 ts0 Hr H IH]; intros l1 El; [constructor|].
      cbn [length seq map]. constructor.
      - cbn [shp]. destruct Hr as (ls & _ & _ & _ & _ & _ & Hsa & Hti). rewrite Hti, to_of_nat.
        unfold flat. rewrite map_length, seq_length, <- Hsa. f_equal. rewrite El, map_app, app_nth2; rewrite map_length; [|lia].
        now rewrite Nat.sub_diag.
      - specialize (IH (l1 ++ [a])). rewrite app_length in IH. cbn [length] in IH.
        rewrite Nat.add_1_r in IH. apply IH. rewrite <- app_assoc. exact El. }
    exact (G l ts [] eq_refl Hrep). }
  eexists. splits; try reflexivity; [exact Hsh|].
  exists (fun v => writes y0 idxs (inputs_of (map tg_shape ts) v)). split.
  - intros v. cbn [c_ins c_compute c_out].
    replace (Nat.eqb (length s) 0) with false by (destruct s; [congruence|reflexivity]).
    rewrite (write_all_writes _ _ _ (Hsz v)). split; [reflexivity|].
    set (y := writes y0 idxs (inputs_of (map tg_shape ts) v)).
    split; [reflexivity|]. split.
    + intros p a Ha. destruct (Forall2_nth _ _ _ _ _ _ _ Hrep Ha) as (t & Ht & Hr).
      destruct (Hidx p a t Ha Ht Hr) as (ls & Hi & Hx & Hsa & Hp).
      assert (Hpl : (p < length (map tg_shape ts))%nat) by (rewrite map_length; apply nth_error_Some; congruence).
      assert (Enth : nth p (map tg_shape ts) [] = map (@length nat) ls).
      { rewrite Hsh, <- Hsa. apply nth_error_nth. rewrite nth_error_map, Ha. reflexivity. }
      exists (Nd (map (@length nat) ls) (v p)). split; [rewrite inputs_nth_error by assumption; now rewrite Enth|].
      exists (of_fun (map (@length nat) ls) (fun idx => get (Nd s y) (pick ls idx))). splits.
      * unfold np_index. cbn [shp]. now rewrite Hx.
      * reflexivity.
      * intros idx Hb. cbn [shp of_fun] in Hb. rewrite get_of_fun by assumption. unfold get. cbn [shp dat].
        assert (Hj : (ravel (map (@length nat) ls) idx < size (map (@length nat) ls))%nat) by (now apply ravel_lt).
        assert (Hfl : nth (ravel (map (@length nat) ls) idx) (flat s ls) 0%nat = ravel s (pick ls idx)).
        { unfold flat. rewrite nth_indep with (d' := (fun j => ravel s (pick ls (unravel (map (@length nat) ls) j))) 0%nat)
            by (rewrite map_length, seq_length; assumption).
          rewrite (map_nth (fun j => ravel s (pick ls (unravel (map (@length nat) ls) j)))), seq_nth by assumption.
          cbn [plus]. now rewrite unravel_ravel. }
        assert (Hin : In (ravel s (pick ls idx)) (flat s ls)) by (apply flat_In; exists idx; auto).
        unfold y. rewrite (writes_in idxs _ y0 p (flat s ls) (Nd (map (@length nat) ls) (v p)) _ NDc Hp);
          [|rewrite inputs_nth_error by assumption; now rewrite Enth|assumption].
        cbn [dat]. f_equal. rewrite <- Hfl. apply find_pos_nth; [exact (flat_NoDup s (as_key a) ls Hi Hx)|].
        unfold flat. now rewrite map_length, seq_length.
    + intros z Hz Hn. cbn [dat]. unfold y. apply writes_out. unfold idxs. rewrite stored_concat. intros Hin.
      apply in_map_iff in Hin. destruct Hin as (q & Eq & Hq). destruct (stored_nonneg s l ts q Hrep Hq) as [Hq0 _].
      assert (Hzq : In (Z.of_nat z) (flat_map tg_idx ts)) by (rewrite <- Eq, Z2Nat.id by assumption; exact Hq).
      apply (rep_names s l ts z Hrep) in Hzq. destruct Hzq as (a & Ha & Hna). exact (Hn a Ha Hna).
  - intros v p _ Hp. cbn [c_ins c_out c_partials] in *. rewrite map_length in Hp.
    destruct (nth_error ts p) as [t|] eqn:Et; [|apply nth_error_None in Et; lia].
    destruct (nth_error l p) as [a|] eqn:Ea.
    2: { apply nth_error_None in Ea. pose proof (Forall2_len _ _ _ _ _ Hrep). lia. }
    destruct (Forall2_nth _ _ _ _ _ _ _ Hrep Ea) as (t' & Et' & Hr). rewrite Et in Et'. injection Et' as <-.
    destruct (Hidx p a t Ea Et Hr) as (ls & Hi & Hx & Hsa & Hpi).
    fold idxs. rewrite Hpi.
    rewrite (sparse_partials_scalar (length (flat s ls))) by reflexivity.
    cbn [as_sparse option_map]. eexists. split; [reflexivity|]. cbn [exact_jac dat np_arange].
    assert (Enth : size (nth p (map tg_shape ts) []) = length (flat s ls)).
    { rewrite Hsh. rewrite (nth_error_nth (map as_shape l) p [] (x := as_shape a)) by (now rewrite nth_error_map, Ea).
      rewrite Hsa. unfold flat. now rewrite map_length, seq_length. }
    rewrite Enth. apply writes_jacobian; try assumption.
    + rewrite map_length. now symmetry.
    + intros z Hz. exact (flat_lt _ _ _ Hi Hz).
Qed.

(** ---- the theorems ---- *)

Lemma assign_accept : forall s hs o rs a, Forall (fun a => fitting s (as_key a)) hs -> fitting s (as_key a) ->
  setitems (fresh_out s) hs = (o, rs) -> ~ In Overlap rs ->
  (snd (setitem o (as_key a) (as_name a) (as_shape a)) = Done <->
   assign_within s (key_entries (as_key a)) /\ part_shape s (as_key a) (as_shape a) /\
   (forall b, In b (done hs rs) -> as_name b <> as_name a) /\
   (forall b z, In b (done hs rs) -> names_position s (as_key b) z -> ~ names_position s (as_key a) z)).
Proof.
  intros s hs o rs a Hf Ha H Hno.
  pose proof (setitems_stored hs s [] _ _ _ (fresh_stored s) Hf H Hno) as St. cbn [app] in St.
  destruct (setitem o (as_key a) (as_name a) (as_shape a)) as [o' r] eqn:E. cbn [snd].
  exact (proj1 (setitem_step s _ o a o' r St Ha E)).
Qed.

Lemma flat_map_disjoint : forall (A B : Type) (f : A -> list B) l p q a b z, NoDup (flat_map f l) -> p <> q ->
  nth_error l p = Some a -> nth_error l q = Some b -> In z (f a) -> In z (f b) -> False.
Proof.
  intros A B f. induction l as [|x l IH]; intros p q a b z ND Hpq Ha Hb Hza Hzb; [destruct p; discriminate|].
  cbn [flat_map] in ND.
  assert (Htail : NoDup (flat_map f l)).
  { clear - ND. induction (f x); [exact ND|]. cbn in ND. inversion ND; auto. }
  assert (Hhead : forall y c q', nth_error l q' = Some c -> In y (f x) -> In y (f c) -> False).
  { intros y c q' Hc Hy Hyc. apply in_split in Hy. destruct Hy as (l1 & l2 & E). rewrite E in ND.
    rewrite <- app_assoc in ND. cbn [app] in ND. apply NoDup_remove_2 in ND. apply ND.
    apply in_or_app. right. apply in_or_app. right. apply in_flat_map. exists c. split; [|assumption].
    now apply nth_error_In with (n := q'). }
  destruct p as [|p], q as [|q]; cbn [nth_error] in Ha, Hb.
  - congruence.
  - injection Ha as <-. exact (Hhead z b q Hb Hza Hzb).
  - injection Hb as <-. exact (Hhead z a p Ha Hzb Hza).
  - apply (IH p q a b z); auto.
Qed.

Lemma assign_disjoint : forall s hs o rs, Forall (fun a => fitting s (as_key a)) hs ->
  setitems (fresh_out s) hs = (o, rs) -> ~ In Overlap rs ->
  (forall p q a b z, p <> q -> nth_error (done hs rs) p = Some a -> nth_error (done hs rs) q = Some b ->
     names_position s (as_key a) z -> ~ names_position s (as_key b) z) /\
  (forall a z, In a (done hs rs) -> names_position s (as_key a) z -> (z < size s)%nat).
Proof.
  intros s hs o rs Hf H Hno.
  pose proof (setitems_stored hs s [] _ _ _ (fresh_stored s) Hf H Hno) as St. cbn [app] in St.
  destruct St as (_ & Hrep & Hc & ND & _). rewrite Hc in ND. split.
  - intros p q a b z Hpq Ha Hb Hza Hzb.
    destruct (Forall2_nth _ _ _ _ _ _ _ Hrep Ha) as (ta & Eta & la & _ & _ & Xa & _ & _ & _ & Ia).
    destruct (Forall2_nth _ _ _ _ _ _ _ Hrep Hb) as (tb & Etb & lb & _ & _ & Xb & _ & _ & _ & Ib).
    apply (flat_map_disjoint _ _ tg_idx (ov_tgts o) p q ta tb (Z.of_nat z) ND Hpq Eta Etb).
    + rewrite Ia. apply in_map. now apply (flat_names s (as_key a) la z Xa).
    + rewrite Ib. apply in_map. now apply (flat_names s (as_key b) lb z Xb).
  - intros a z Ha Hz. apply In_nth_error in Ha. destruct Ha as (p & Ha).
    destruct (Forall2_nth _ _ _ _ _ _ _ Hrep Ha) as (ta & Eta & la & _ & Hi & Xa & _).
    apply (flat_lt s la z Hi). now apply (flat_names s (as_key a) la z Xa).
Qed.

Lemma assign_value : forall s hs o rs y0, Forall (fun a => fitting s (as_key a)) hs ->
  setitems (fresh_out s) hs = (o, rs) -> ~ In Overlap rs -> In Done rs ->
  ov_built o = true /\
  exists c, assembled s y0 (ov_tgts o) = Some c /\ c_ins c = map as_shape (done hs rs) /\ c_out c = s /\
    correct c (assembles s y0 (done hs rs)).
Proof.
  intros s hs o rs y0 Hf H Hno Hd.
  pose proof (setitems_stored hs s [] _ _ _ (fresh_stored s) Hf H Hno) as St. cbn [app] in St.
  assert (Hne : done hs rs <> []).
  { clear - H Hd. revert H. generalize (fresh_out s) as o0. revert o rs Hd. induction hs as [|a hs IH]; intros o rs Hd o0 H; cbn [setitems] in H.
    - injection H as <- <-. destruct Hd.
    - destruct (setitem o0 _ _ _) as [o1 r]. destruct (setitems o1 hs) as [o2 rs'] eqn:E2. injection H as <- <-.
      cbn [done]. destruct r; [discriminate| |]; (destruct Hd as [Hd|Hd]; [discriminate|exact (IH _ _ Hd _ E2)]). }
  split; [apply St; assumption|]. exact (stored_correct s _ o y0 St Hne).
Qed.

(** C23 *)
Lemma assign_rejected : forall o k e es o', setitem o k e es = (o', Rejected) ->
  o' = OutVar (ov_shape o) (ov_deps o ++ [e]) (ov_tgts o) (ov_checked o) (ov_built o).
Proof.
  intros o k e es o' H. unfold setitem in H. destruct (key_targets (ov_shape o) k) as [t|]; [|now injection H as <-].
  destruct (list_eq_dec Nat.eq_dec (shp t) es); [|now injection H as <-].
  destruct (forallb _ _); [|now injection H as <-].
  destruct (name_used o e); [now injection H as <-|]. destruct (existsb _ _); discriminate.
Qed.

Definition sl (a b : Z) : key := KOne (KSlice (Slice (Some a) (Some b) None)).

(** out of shape (3,): out[0:2] = x; out[1:3] = y raises; the component still
    writes y to out[1], and d out[1] / d x[1] is declared as 1 *)
Lemma assign_overlap_effect : exists s a b o,
  setitems (fresh_out s) [a; b] = (o, [Done; Overlap]) /\ ov_built o = true /\
  forall y0, exists c, assembled s y0 (ov_tgts o) = Some c /\ length (c_ins c) = 2%nat /\
    forall v, exists y j, c_compute c (inputs_of (c_ins c) v) = Some y /\
      names_position s (as_key a) 1 /\ dat y 1%nat = v 1%nat 0%nat /\
      c_partials c (inputs_of (c_ins c) v) 0 = Some (Sparse j) /\ coo_entry j 1 1 = 1%R.
Proof.
  exists [3]%nat, (Assign (sl 0 2) 0 [2]%nat), (Assign (sl 1 3) 1 [2]%nat).
  eexists. splits; [vm_compute; reflexivity|reflexivity|].
  intros y0. eexists. splits; [reflexivity|reflexivity|].
  intros v. do 2 eexists. splits.
  - reflexivity.
  - exists [[0; 1]]%nat, [1]%nat. split; [reflexivity|]. split; [|reflexivity]. cbn. lia.
  - reflexivity.
  - reflexivity.
  - unfold coo_entry. simpl. lra.
Qed.

(** C24 *)
Lemma setitem_keeps : forall o k e es o' r, setitem o k e es = (o', r) ->
  forall t, In t (ov_tgts o) -> In t (ov_tgts o').
Proof.
  intros o k e es o' r H t Ht. unfold setitem in H.
  destruct (key_targets (ov_shape o) k) as [t0|]; [|injection H as <- <-; exact Ht].
  destruct (list_eq_dec Nat.eq_dec (shp t0) es); [|injection H as <- <-; exact Ht].
  destruct (forallb _ _); [|injection H as <- <-; exact Ht].
  destruct (name_used o e); [injection H as <- <-; exact Ht|].
  destruct (existsb _ _); injection H as <- <-; cbn [ov_tgts]; apply in_or_app; now left.
Qed.

Lemma setitems_keeps : forall hs o o' rs, setitems o hs = (o', rs) -> forall t, In t (ov_tgts o) -> In t (ov_tgts o').
Proof.
  induction hs as [|a hs IH]; intros o o' rs H t Ht; cbn [setitems] in H; [now injection H as <- <-|].
  destruct (setitem o _ _ _) as [o1 r] eqn:E1. destruct (setitems o1 hs) as [o2 rs'] eqn:E2. injection H as <- <-.
  apply (IH _ _ _ E2). exact (setitem_keeps _ _ _ _ _ _ E1 t Ht).
Qed.

(** a negative integer is accepted, and from then on setup raises *)
Lemma assign_negative : forall o z e, z < 0 -> name_used o e = false -> ~ In z (ov_checked o) ->
  exists o1, setitem o (KOne (KInt z)) e [1%nat] = (o1, Done) /\
    forall hs o2 rs, setitems o1 hs = (o2, rs) -> forall s y0, assembled s y0 (ov_tgts o2) = None.
Proof.
  intros o z e Hz Hn Hc. unfold setitem. cbn [key_targets shp]. destruct (list_eq_dec Nat.eq_dec [1%nat] [1%nat]); [|congruence].
  cbn [size Nat.mul Nat.add seq map dat forallb]. destruct (Z.ltb_spec z (Z.of_nat (size (ov_shape o)))); [|lia].
  cbn [andb]. rewrite Hn. cbn [existsb].
  replace (zmem z (ov_checked o)) with false.
  2: { symmetry. destruct (zmem z (ov_checked o)) eqn:E; [|reflexivity]. apply zmem_In in E. contradiction. }
  cbn [orb]. eexists. split; [reflexivity|]. intros hs o2 rs H2 s y0. unfold assembled.
  replace (forallb _ _) with false; [reflexivity|]. symmetry.
  destruct (forallb _ _) eqn:E; [|reflexivity]. rewrite forallb_forall in E.
  assert (Hin : In (Target e [1%nat] [z]) (ov_tgts o2)).
  { apply (setitems_keeps _ _ _ _ H2). cbn [ov_tgts]. apply in_or_app. right. now left. }
  specialize (E _ Hin). cbn [tg_idx forallb] in E. destruct (Z.leb_spec 0 z); [lia|]. discriminate.
Qed.

(** out[-100] and then, on the same output, out[-1] and out[2] for three entries *)
Lemma assign_negative_case :
  snd (setitems (fresh_out [3]%nat)
    [Assign (KOne (KInt (-100))) 0 [1]%nat; Assign (KOne (KInt (-1))) 1 [1]%nat; Assign (KOne (KInt 2)) 2 [1]%nat])
  = [Done; Done; Done].
Proof. reflexivity. Qed.

(** C73: out of shape (2, 3), out[0:2] *)
Lemma assign_slice_nd : exists s k x y, (2 <= length s)%nat /\ plain_key k /\ (exists k1, k = KOne k1) /\
  part_shape s k (as_shape x) /\ as_key x = k /\ as_key y = k /\ as_shape y <> as_shape x /\
  snd (setitems (fresh_out s) [x]) = [Rejected] /\ snd (setitems (fresh_out s) [y]) = [Done].
Proof.
  exists [2; 3]%nat, (sl 0 2), (Assign (sl 0 2) 0 [2; 3]%nat), (Assign (sl 0 2) 0 [2]%nat). splits; try reflexivity.
  - repeat constructor.
  - eexists. reflexivity.
  - eexists. split; reflexivity.
  - discriminate.
Qed.

(** on an array of several axes a single entry is never read as NumPy does *)
Lemma index_positions_length : forall s l ls, index_positions s l = Some ls -> length ls = length s.
Proof.
  induction s as [|n s IH]; intros [|q l] ls H; cbn [index_positions] in H; try discriminate.
  - now injection H as <-.
  - destruct (sl_positions n sl_all); [|discriminate]. destruct (index_positions s []) eqn:E; [|discriminate].
    injection H as <-. cbn. now rewrite (IH _ _ E).
  - destruct (sl_positions n q); [|discriminate]. destruct (index_positions s l) eqn:E; [|discriminate].
    injection H as <-. cbn. now rewrite (IH _ _ E).
Qed.

Lemma assign_single_nd : forall o k1 e es, (2 <= length (ov_shape o))%nat ->
  snd (setitem o (KOne k1) e es) = Done -> ~ part_shape (ov_shape o) (KOne k1) es.
Proof.
  intros o k1 e es Hs H (ls & Hx & ->). apply index_positions_length in Hx. unfold setitem in H.
  destruct (key_targets (ov_shape o) (KOne k1)) as [t|] eqn:Ek; [|discriminate].
  destruct (list_eq_dec Nat.eq_dec (shp t) (map (@length nat) ls)) as [E|]; [|discriminate].
  assert (Hl : length (shp t) = 1%nat).
  { cbn [key_targets] in Ek. destruct k1 as [z|q| | |]; try discriminate.
    - now injection Ek as <-.
    - destruct (ov_shape o); [discriminate|]. destruct (slice_to_list _ _ _ _); [|discriminate].
      now injection Ek as <-. }
  rewrite E, map_length in Hl. lia.
Qed.

(** ---- a case ---- *)

(** out of shape (2, 3): out[0, :] = x of shape (1, 3), out[1, 0:-1] = y of
    shape (1, 2), out[0, 1] = z refused, out[0:1, 0:2] overlapping is not tried *)
Definition case_hs : list assignment :=
  [Assign (KTuple [KInt 0; KSlice (Slice None None None)]) 0 [1; 3]%nat;
   Assign (KTuple [KInt 5; KInt 0]) 1 [1; 1]%nat;
   Assign (KTuple [KInt 1; KSlice (Slice (Some 0) (Some (-1)) None)]) 2 [1; 2]%nat].

Example assign_case :
  Forall (fun a => fitting [2; 3]%nat (as_key a)) case_hs /\
  exists o, setitems (fresh_out [2; 3]%nat) case_hs = (o, [Done; Rejected; Done]) /\
    map tg_idx (ov_tgts o) = [[0; 1; 2]; [3; 4]].
Proof.
  split.
  - repeat constructor.
  - eexists. split; vm_compute; reflexivity.
Qed.

Lemma assign_bounds : forall o k e es, fitting (ov_shape o) k ->
  snd (setitem o k e es) <> Rejected -> assign_within (ov_shape o) (key_entries k).
Proof.
  intros o k e es Hf H. unfold setitem in H.
  destruct (key_targets (ov_shape o) k) as [t|] eqn:Ek; [|now elim H].
  destruct (list_eq_dec Nat.eq_dec (shp t) es); [|now elim H].
  fold (all_below (ov_shape o) t) in H. destruct (all_below (ov_shape o) t) eqn:Eb; [|now elim H].
  exact (proj1 (targets_sound _ _ _ Hf Ek Eb)).
Qed.
