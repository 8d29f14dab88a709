(** Indexing with int and slice keys. *)
From Coq Require Import Reals Lra Lia Arith List Bool ZArith.
From Verif Require Import PyBase RSum NdArray NdIndex Component CompReorder JacSpec ReorderProofs EinsumCalc Indexing SpecIndex.
Import ListNotations.
Local Open Scope Z_scope.

(** ---- ranges ---- *)

Lemma range_len_spec : forall a b st k, st <> 0 ->
  ((k < range_len a b st)%nat <->
   (0 < st /\ a + Z.of_nat k * st < b) \/ (st < 0 /\ b < a + Z.of_nat k * st)).
Proof.
  intros a b st k Hst. unfold range_len. destruct (0 <? st) eqn:E.
  - apply Z.ltb_lt in E.
    pose proof (Z.div_mod (b - a + st - 1) st Hst) as D.
    pose proof (Z.mod_pos_bound (b - a + st - 1) st E) as M.
    set (q := (b - a + st - 1) / st) in *. split.
    + intros H. left. split; [assumption|]. assert (Z.of_nat k + 1 <= q) by lia. nia.
    + intros [[_ H]|[H _]]; [|lia]. assert (Z.of_nat k < q); [|lia].
      destruct (Z.lt_ge_cases (Z.of_nat k) q); [assumption|]. nia.
  - apply Z.ltb_ge in E. assert (E' : 0 < - st) by lia.
    pose proof (Z.div_mod (a - b - st - 1) (- st) ltac:(lia)) as D.
    pose proof (Z.mod_pos_bound (a - b - st - 1) (- st) E') as M.
    set (q := (a - b - st - 1) / (- st)) in *. split.
    + intros H. right. split; [lia|]. assert (Z.of_nat k + 1 <= q) by lia. nia.
    + intros [[H _]|[_ H]]; [lia|]. assert (Z.of_nat k < q); [|lia].
      destruct (Z.lt_ge_cases (Z.of_nat k) q); [assumption|]. nia.
Qed.

Lemma range_In : forall a b st l, py_range a b st = Some l ->
  forall e, In e l <-> reaches a b st e.
Proof.
  intros a b st l H e. unfold py_range in H. destruct (Z.eqb_spec st 0) as [|Hst]; [discriminate|].
  injection H as <-. rewrite in_map_iff. unfold reaches. split.
  - intros (k & <- & Hk). apply in_seq in Hk. exists (Z.of_nat k). split; [lia|]. split; [reflexivity|].
    apply range_len_spec; [assumption|lia].
  - intros (k & Hk & -> & H). exists (Z.to_nat k). rewrite Z2Nat.id by assumption. split; [reflexivity|].
    apply in_seq. split; [lia|]. cbn [plus]. apply range_len_spec; [assumption|].
    now rewrite Z2Nat.id by assumption.
Qed.

Lemma nat_same : forall m n : nat, (forall k, (k < m <-> k < n)%nat) -> m = n.
Proof.
  intros m n H. destruct (Nat.lt_trichotomy m n) as [E|[E|E]]; [|assumption|].
  - apply H in E. lia.
  - apply H in E. lia.
Qed.

(** ranges with the same elements *)
Lemma range_same : forall a b b' st, st <> 0 ->
  (forall e, reaches a b st e <-> reaches a b' st e) ->
  py_range a b st = py_range a b' st.
Proof.
  intros a b b' st Hst H. unfold py_range. apply Z.eqb_neq in Hst as E. rewrite E. do 2 f_equal. f_equal.
  apply nat_same. intros k. rewrite !range_len_spec by assumption. split; intros Hk.
  - destruct (proj1 (H (a + Z.of_nat k * st))) as (q & Hq & Eq & Hr).
    + exists (Z.of_nat k). split; [lia|]. split; [reflexivity|assumption].
    + exact Hr.
  - destruct (proj2 (H (a + Z.of_nat k * st))) as (q & Hq & Eq & Hr).
    + exists (Z.of_nat k). split; [lia|]. split; [reflexivity|assumption].
    + exact Hr.
Qed.

Lemma reaches_start : forall a b st e, reaches a b st e -> reaches a b st a.
Proof.
  intros a b st e (k & Hk & -> & H). exists 0. split; [lia|]. split; [lia|]. nia.
Qed.

(** ---- one entry ---- *)

Definition entry_bounds (n : Z) (k : key1) : bounds :=
  match k with
  | KInt z => (z, z + 1, None)
  | KSlice s => slice_to_tuple s n
  | _ => (0, 0, None)
  end.

Definition list_of (b : bounds) : option (list nat) :=
  match b with (a, e, st) => slice_to_list (Some a) (Some e) st None end.

Lemma list_of_spec : forall a b st l,
  list_of (a, b, st) = Some l <->
  0 <= b /\ exists zl, py_range a b (or_else st 1) = Some zl /\ zl <> [] /\
    (forall z, In z zl -> 0 <= z) /\ l = map Z.to_nat zl.
Proof.
  intros a b st l. unfold list_of, slice_to_list. cbn [or_else].
  destruct (Z.ltb_spec b 0).
  - split; [discriminate|]. intros [H0 _]. lia.
  - destruct (py_range a b (or_else st 1)) as [[|z zl]|].
    + split; [discriminate|]. intros (_ & zl & E & Hn & _). injection E as <-. now elim Hn.
    + destruct (forallb (fun z => 0 <=? z) (z :: zl)) eqn:E.
      * rewrite forallb_forall in E. split.
        -- intros H1. injection H1 as <-. split; [assumption|]. exists (z :: zl). splits; try reflexivity; try discriminate.
           intros q Hq. apply E in Hq. now apply Z.leb_le.
        -- intros (_ & zl' & E' & _ & _ & ->). now injection E' as <-.
      * split; [discriminate|]. intros (_ & zl' & E' & _ & Hp & _). injection E' as <-.
        assert (forallb (fun z => 0 <=? z) (z :: zl) = true); [|congruence].
        apply forallb_forall. intros q Hq. apply Z.leb_le. auto.
    + split; [discriminate|]. intros (_ & zl & E & _). discriminate.
Qed.

Definition is_plain (k : key1) : Prop := match k with KInt _ | KSlice _ => True | _ => False end.

Lemma reaches_one : forall z e, reaches z (z + 1) 1 e <-> e = z.
Proof.
  intros z e. unfold reaches. split.
  - intros (k & Hk & -> & [[_ H]|[H _]]); lia.
  - intros ->. exists 0. lia.
Qed.

Lemma entry_list : forall n k, is_plain k ->
  (entry_within n k <->
   exists l, list_of (entry_bounds (Z.of_nat n) k) = Some l /\ forallb (fun i => Nat.ltb i n) l = true).
Proof.
  intros n k Hp.
  assert (Hin : forall a b st zl, py_range a b st = Some zl -> (forall z, In z zl -> 0 <= z) ->
    (forallb (fun i => Nat.ltb i n) (map Z.to_nat zl) = true <-> forall e, reaches a b st e -> 0 <= e < Z.of_nat n)).
  { intros a b st zl E Hz. rewrite forallb_forall. split.
    - intros H e He. apply (range_In _ _ _ _ E) in He. specialize (H (Z.to_nat e) (in_map _ _ _ He)).
      apply Nat.ltb_lt in H. specialize (Hz e He). lia.
    - intros H i Hi. apply in_map_iff in Hi. destruct Hi as (e & <- & He). apply Nat.ltb_lt.
      specialize (Hz e He). apply (range_In _ _ _ _ E) in He. apply H in He. lia. }
  assert (G : forall a b st, (0 <= b /\ (exists e, reaches a b (or_else st 1) e) /\
              (forall e, reaches a b (or_else st 1) e -> 0 <= e < Z.of_nat n)) <->
            exists l, list_of (a, b, st) = Some l /\ forallb (fun i => Nat.ltb i n) l = true).
  { intros a b st. split.
    - intros (Hb & (e & He) & Hall).
      assert (Hst : or_else st 1 <> 0) by (destruct He as (q & _ & _ & H); lia).
      assert (Er : exists zl, py_range a b (or_else st 1) = Some zl).
      { unfold py_range. apply Z.eqb_neq in Hst. rewrite Hst. eexists. reflexivity. }
      destruct Er as [zl Er].
      assert (Hz : forall z, In z zl -> 0 <= z).
      { intros z Hz. apply (range_In _ _ _ _ Er) in Hz. apply Hall in Hz. lia. }
      exists (map Z.to_nat zl). split.
      + apply list_of_spec. split; [assumption|]. exists zl. splits; auto.
        intros ->. apply (range_In _ _ _ _ Er) in He. destruct He.
      + apply (Hin _ _ _ _ Er Hz). assumption.
    - intros (l & E & Hl). apply list_of_spec in E. destruct E as (Hb & zl & Er & Hn & Hz & ->).
      split; [assumption|]. split.
      + destruct zl as [|z zl]; [now elim Hn|]. exists z. apply (range_In _ _ _ _ Er). now left.
      + apply (Hin _ _ _ _ Er Hz). assumption. }
  destruct k as [z|s| | |]; try (exfalso; exact Hp); cbn [entry_bounds entry_within].
  - rewrite <- G. cbn [or_else]. split.
    + intros H. split; [lia|]. split; [exists z; now apply reaches_one|]. intros e He. apply reaches_one in He. lia.
    + intros (_ & _ & H). apply H. now apply reaches_one.
  - unfold slice_to_tuple. rewrite <- G. reflexivity.
Qed.

(** the code's list of positions is NumPy's *)
Lemma entry_numpy : forall n k l, entry_within n k -> is_plain k ->
  list_of (entry_bounds (Z.of_nat n) k) = Some l -> sl_positions n (as_slice k) = Some l.
Proof.
  intros n k l Hw Hp El.
  assert (G : forall a b st zl, py_range a b st = Some zl -> zl <> [] ->
            0 <= b -> (forall e, reaches a b st e -> 0 <= e < Z.of_nat n) ->
            let b' := if 0 <? st then Z.min b (Z.of_nat n) else b in
            0 <= a < Z.of_nat n /\ st <> 0 /\ (st < 0 -> b < Z.of_nat n - 1) /\
            py_range a b' st = Some zl).
  { intros a b st zl Er Hn Hb Hall b'.
    assert (Hst : st <> 0) by (intros ->; discriminate).
    assert (Ha : reaches a b st a).
    { destruct zl as [|z zl]; [now elim Hn|]. apply reaches_start with z. apply (range_In _ _ _ _ Er). now left. }
    pose proof (Hall a Ha) as Ha'. split; [assumption|]. split; [assumption|]. split.
    { intros Hneg. destruct Ha as (q & _ & _ & H). lia. }
    rewrite <- Er. symmetry. apply range_same; [assumption|]. intros e. unfold b'.
    destruct (Z.ltb_spec 0 st); [|reflexivity]. split.
    - intros He. pose proof (Hall e He). destruct He as (q & Hq & E & H1). exists q. splits; try assumption. lia.
    - intros (q & Hq & E & H1). exists q. splits; try assumption. lia. }
  destruct k as [z|s| | |]; try (exfalso; exact Hp); cbn [entry_bounds as_slice entry_within] in *.
  - apply list_of_spec in El. destruct El as (Hb & zl & Er & Hn & Hz & ->). cbn [or_else] in Er.
    unfold sl_positions. cbn [sl_step sl_start sl_stop or_else Z.ltb Z.compare sl_clip].
    destruct (G _ _ _ _ Er Hn Hb) as (Ha & _ & _ & Er').
    { intros e He. apply reaches_one in He. lia. }
    cbn [Z.ltb Z.compare] in Er'.
    destruct (Z.ltb_spec z 0); [lia|]. destruct (Z.ltb_spec (z + 1) 0); [lia|].
    rewrite Z.min_l by lia. now rewrite Er'.
  - unfold slice_to_tuple in El. destruct Hw as (Hb & _ & Hall).
    apply list_of_spec in El. destruct El as (_ & zl & Er & Hn & Hz & ->).
    destruct (G _ _ _ _ Er Hn Hb Hall) as (Ha & Hst & Hneg & Er').
    unfold sl_positions. destruct s as [start stop step]. cbn [sl_step sl_start sl_stop] in *.
    set (st := or_else step 1) in *.
    destruct (Z.ltb_spec st 0) as [Hs|Hs].
    + specialize (Hneg Hs). destruct (Z.ltb_spec 0 st); [lia|].
      assert (Es : sl_clip (Z.of_nat n) st start (Z.of_nat n - 1) = or_else start 0).
      { unfold sl_clip. apply Z.ltb_lt in Hs as E. rewrite E. destruct start as [a|]; cbn [or_else] in *.
        - destruct (Z.ltb_spec a 0); [lia|]. apply Z.min_l. lia.
        - exfalso. destruct zl as [|z zl]; [now elim Hn|].
          assert (Hr : reaches 0 (or_else stop (Z.of_nat n)) st z) by (apply (range_In _ _ _ _ Er); now left).
          apply reaches_start in Hr. destruct Hr as (q & _ & _ & H1). lia. }
      assert (Et : sl_clip (Z.of_nat n) st stop (-1) = or_else stop (Z.of_nat n)).
      { unfold sl_clip. apply Z.ltb_lt in Hs as E. rewrite E. destruct stop as [b|]; cbn [or_else] in *; [|lia].
        destruct (Z.ltb_spec b 0); [lia|]. apply Z.min_l. lia. }
      rewrite Es, Et, Er. reflexivity.
    + assert (Hs' : 0 < st) by lia. destruct (Z.ltb_spec 0 st); [|lia].
      assert (Es : sl_clip (Z.of_nat n) st start 0 = or_else start 0).
      { unfold sl_clip. apply Z.ltb_ge in Hs as E. rewrite E. destruct start as [a|]; cbn [or_else] in *; [|reflexivity].
        destruct (Z.ltb_spec a 0); [lia|]. apply Z.min_l. lia. }
      assert (Et : sl_clip (Z.of_nat n) st stop (Z.of_nat n) = Z.min (or_else stop (Z.of_nat n)) (Z.of_nat n)).
      { unfold sl_clip. apply Z.ltb_ge in Hs as E. rewrite E. destruct stop as [b|]; cbn [or_else] in *.
        - destruct (Z.ltb_spec b 0); [lia|]. reflexivity.
        - lia. }
      rewrite Es, Et, Er'. reflexivity.
Qed.

(** ---- keys ---- *)

Definition zipb (s : list nat) (l : list key1) : list bounds :=
  map (fun p => entry_bounds (Z.of_nat (fst p)) (snd p)) (combine s l).

Definition slice_of (b : bounds) : slice := match b with (a, e, st) => Slice (Some a) (Some e) st end.

Lemma norm_entries_zip : forall l s i, Forall is_plain l -> length l = length (skipn i s) ->
  norm_entries s i l = Some (zipb (skipn i s) l).
Proof.
  induction l as [|k l IH]; intros s i Hp Hl.
  - cbn [norm_entries]. unfold zipb. now destruct (skipn i s).
  - inversion_clear Hp as [|? ? Hk Hr]. cbn [norm_entries].
    assert (Hn : exists n, nth_error s i = Some n /\ skipn i s = n :: skipn (S i) s).
    { clear - Hl. revert i Hl. induction s as [|n s IH]; intros [|i] Hl; cbn in *; try discriminate.
      - exists n. auto.
      - apply IH. exact Hl. }
    destruct Hn as (n & En & Es).
    assert (Hl' : length l = length (skipn (S i) s)) by (rewrite Es in Hl; cbn [length] in Hl; lia).
    rewrite (IH s (S i) Hr Hl'), Es. unfold zipb. cbn [combine map fst snd].
    destruct k; try (exfalso; exact Hk); cbn [entry_bounds]; [reflexivity|]. now rewrite En.
Qed.

Lemma norm_entries_length : forall l s i nk, Forall is_plain l ->
  norm_entries s i l = Some nk -> length nk = length l.
Proof.
  induction l as [|k l IH]; intros s i nk Hp H; cbn [norm_entries] in H.
  - now injection H as <-.
  - inversion_clear Hp as [|? ? Hk Hr]. destruct (norm_entries s (S i) l) as [r|] eqn:E; [|discriminate].
    specialize (IH _ _ _ Hr E). destruct k; try (exfalso; exact Hk).
    + injection H as <-. cbn. now rewrite IH.
    + destruct (nth_error s i); [|discriminate]. injection H as <-. cbn. now rewrite IH.
Qed.

Lemma norm_key_zip : forall s k, plain_key k -> length (key_entries k) = length s ->
  norm_key s k = Some (zipb s (key_entries k)).
Proof.
  intros s k Hp Hl. destruct k as [k|l]; cbn [key_entries norm_key] in *.
  - destruct s as [|n [|n' s]]; try discriminate. inversion_clear Hp as [|? ? Hk _].
    unfold zipb. cbn [combine map fst snd].
    destruct k; try (exfalso; exact Hk); cbn [entry_bounds]; [reflexivity|].
    cbn [size]. now rewrite Nat.mul_1_r.
  - now apply (norm_entries_zip l s 0).
Qed.

Lemma norm_key_length : forall s k nk, plain_key k -> norm_key s k = Some nk ->
  length nk = length (key_entries k).
Proof.
  intros s k nk Hp H. destruct k as [k|l]; cbn [key_entries norm_key] in *.
  - inversion_clear Hp as [|? ? Hk _]. destruct k; try (exfalso; exact Hk); now injection H as <-.
  - now apply norm_entries_length with (2 := H).
Qed.

Lemma in_range_length : forall s ls, in_range s ls = true -> length ls = length s.
Proof.
  induction s as [|n s IH]; intros [|p ls] H; cbn in *; try discriminate; [reflexivity|].
  apply andb_true_iff in H. destruct H as [_ H]. now rewrite IH.
Qed.

Lemma map_opt_length : forall (A B : Type) (f : A -> option B) l r, map_opt f l = Some r -> length r = length l.
Proof.
  intros A B f. induction l as [|x l IH]; intros r H; cbn in H; [now injection H as <-|].
  destruct (f x); [|discriminate]. destruct (map_opt f l) eqn:E; [|discriminate]. injection H as <-.
  cbn. now rewrite (IH _ eq_refl).
Qed.

Lemma zip_positions : forall s l, length l = length s -> Forall is_plain l ->
  (Forall2 entry_within s l <->
   exists ls, key_positions (zipb s l) = Some ls /\ in_range s ls = true).
Proof.
  unfold key_positions, zipb. induction s as [|n s IH]; intros [|k l] Hl Hp; try discriminate.
  - split; [exists []; split; reflexivity|constructor].
  - inversion_clear Hp as [|? ? Hk Hr]. cbn [combine map fst snd map_opt].
    specialize (IH l ltac:(cbn in Hl; lia) Hr). pose proof (entry_list n k Hk) as He.
    unfold list_of in He. split.
    + intros H. inversion H as [|? ? ? ? H1 H2]; subst. apply He in H1. destruct H1 as (p & E & Hp).
      apply IH in H2. destruct H2 as (ls & E' & Hi). rewrite E, E'. exists (p :: ls).
      split; [reflexivity|]. cbn [in_range]. now rewrite Hp, Hi.
    + intros (ls & E & Hi).
      destruct (let '(a, e, st) := entry_bounds (Z.of_nat n) k in slice_to_list (Some a) (Some e) st None) as [p|] eqn:E1;
        [|discriminate].
      destruct (map_opt _ _) as [ls'|] eqn:E2 in E; [|discriminate]. injection E as <-.
      cbn [in_range] in Hi. apply andb_true_iff in Hi. destruct Hi as [Hi1 Hi2].
      constructor; [apply He; exists p|apply IH; exists ls']; split; try assumption; reflexivity.
Qed.

Lemma entry_again : forall n k l, entry_within n k -> is_plain k ->
  list_of (entry_bounds (Z.of_nat n) k) = Some l ->
  sl_positions n (slice_of (entry_bounds (Z.of_nat n) k)) = Some l.
Proof.
  intros n k l Hw Hp E. destruct k as [z|s| | |]; try (exfalso; exact Hp).
  - exact (entry_numpy n (KInt z) l Hw Hp E).
  - exact (entry_numpy n (KSlice (slice_of (entry_bounds (Z.of_nat n) (KSlice s)))) l Hw I E).
Qed.

(** both of NumPy's readings, of the given key and of the stored one *)
Lemma zip_numpy : forall s l ls, Forall is_plain l -> Forall2 entry_within s l ->
  key_positions (zipb s l) = Some ls ->
  index_positions s (map as_slice l) = Some ls /\ index_positions s (map slice_of (zipb s l)) = Some ls.
Proof.
  unfold key_positions, zipb. induction s as [|n s IH]; intros l ls Hp H E; inversion H as [|? k ? l' H1 H2]; subst.
  - injection E as <-. split; reflexivity.
  - inversion_clear Hp as [|? ? Hk Hr]. cbn [combine map fst snd map_opt] in *.
    destruct (let '(a, e, st) := entry_bounds (Z.of_nat n) k in slice_to_list (Some a) (Some e) st None) as [p|] eqn:E1;
      [|discriminate].
    destruct (map_opt _ _) as [ls'|] eqn:E2 in E; [|discriminate]. injection E as <-.
    destruct (IH l' ls' Hr H2 E2) as [I1 I2]. cbn [index_positions].
    rewrite (entry_numpy n k p H1 Hk E1), (entry_again n k p H1 Hk E1), I1, I2. split; reflexivity.
Qed.

Lemma Forall2_len : forall (A B : Type) (P : A -> B -> Prop) l m, Forall2 P l m -> length l = length m.
Proof. intros A B P l m H. induction H; cbn; congruence. Qed.

(** accepted by the code's computation of source indices *)
Lemma src_within : forall s k, plain_key k ->
  (key_within s k <-> exists nk src, norm_key s k = Some nk /\ src_indices s nk = Some src).
Proof.
  intros s k Hp. unfold key_within. split.
  - intros [Hs H]. assert (Hl : length (key_entries k) = length s) by (symmetry; exact (Forall2_len _ _ _ _ _ H)).
    exists (zipb s (key_entries k)). rewrite norm_key_zip by assumption.
    apply zip_positions in H; [|assumption|assumption]. destruct H as (ls & E & Hi).
    unfold src_indices. rewrite E. unfold mesh_ravel. rewrite Hi.
    destruct s; [congruence|]. cbn [length Nat.eqb negb andb option_map]. eexists. split; reflexivity.
  - intros (nk & src & En & Es). unfold src_indices in Es.
    destruct (key_positions nk) as [ls|] eqn:E; [|discriminate]. unfold mesh_ravel in Es.
    destruct (negb (Nat.eqb (length s) 0) && in_range s ls) eqn:Ei; [|discriminate].
    apply andb_true_iff in Ei. destruct Ei as [Hs Hi].
    assert (Hl : length (key_entries k) = length s).
    { exact (eq_trans (eq_sym (norm_key_length _ _ _ Hp En))
        (eq_trans (eq_sym (map_opt_length _ _ _ _ _ E)) (in_range_length _ _ Hi))). }
    split; [intros ->; discriminate|].
    rewrite norm_key_zip in En by assumption. injection En as <-.
    apply zip_positions; [assumption|assumption|]. exists ls. split; assumption.
Qed.

(** what the stored key gives *)
Lemma src_spec : forall s k nk src, plain_key k -> norm_key s k = Some nk -> src_indices s nk = Some src ->
  exists ls, in_range s ls = true /\ index_positions s (map as_slice (key_entries k)) = Some ls /\
    index_shape s nk = Some (map (@length nat) ls) /\
    src = np_flatten (of_fun (map (@length nat) ls) (fun idx => ravel s (pick ls idx))).
Proof.
  intros s k nk src Hp En Es.
  assert (W : key_within s k) by (apply src_within; [assumption|]; exists nk, src; split; assumption).
  destruct W as [Hs H].
  assert (Hl : length (key_entries k) = length s) by (symmetry; exact (Forall2_len _ _ _ _ _ H)).
  rewrite norm_key_zip in En by assumption. injection En as <-.
  unfold src_indices in Es. destruct (key_positions (zipb s (key_entries k))) as [ls|] eqn:E; [|discriminate].
  destruct (zip_numpy _ _ _ Hp H E) as [I1 I2]. unfold mesh_ravel in Es.
  destruct (negb (Nat.eqb (length s) 0) && in_range s ls) eqn:Ei; [|discriminate].
  apply andb_true_iff in Ei. destruct Ei as [_ Hi]. injection Es as <-.
  exists ls. splits; auto. 
  change (option_map (map (@length nat)) (index_positions s (map slice_of (zipb s (key_entries k))))
          = Some (map (@length nat) ls)). now rewrite I2.
Qed.

(** ---- the component ---- *)

Lemma pick_inb : forall s ls idx, in_range s ls = true -> inb (map (@length nat) ls) idx -> inb s (pick ls idx).
Proof.
  induction s as [|n s IH]; intros [|p ls] [|i idx] Hi Hb; cbn in *; try discriminate; try tauto.
  - apply andb_true_iff in Hi. destruct Hi as [H1 H2]. destruct Hb as [Hb1 Hb2]. split; [|auto].
    rewrite forallb_forall in H1. apply Nat.ltb_lt. apply H1. now apply nth_In.
Qed.

Lemma piece_correct : forall s k nk p, plain_key k -> norm_key s k = Some nk ->
  pc_key p = nk -> src_indices s nk = Some (pc_src p) -> index_shape s nk = Some (pc_shape p) ->
  exists c, decompose_comp s p = Some c /\ c_ins c = [s] /\ c_out c = pc_shape p /\ correct c (selects k).
Proof.
  intros s k nk p Hp En <- Es Ei.
  destruct (src_spec _ _ _ _ Hp En Es) as (ls & Hi & Hx & Hsh & Esrc).
  rewrite Hsh in Ei. injection Ei as Ei. set (sh := map (@length nat) ls) in *.
  assert (Hsz : size (shp (pc_src p)) = size sh).
  { rewrite Esrc. cbn [shp np_flatten size of_fun]. lia. }
  unfold decompose_comp. rewrite <- Ei, Hsz, Nat.leb_refl. eexists. splits; try reflexivity.
  apply correct_gather with (g := fun o => ravel s (pick ls (unravel sh o)))
    (c := Coo (size sh) (fun k => k) (fun o => ravel s (pick ls (unravel sh o))) (fun _ => 1%R)).
  - intros x. unfold assign_output. cbn [shp dat]. replace (size [size sh]) with (size sh) by (cbn; lia).
    rewrite Nat.eqb_refl. f_equal. unfold np_reshape. cbn [dat]. rewrite Esrc. reflexivity.
  - intros x. unfold as_sparse. rewrite sparse_partials_scalar with (n := size sh); [|reflexivity|].
    + cbn [option_map]. rewrite Esrc. reflexivity.
    + rewrite Esrc. reflexivity.
  - reflexivity.
  - intros j Hj. cbn [rows cols vals]. auto.
  - intros j Hj. apply ravel_lt, pick_inb; [assumption|]. now apply unravel_inb.
  - intros x. exists (Nd s x), (of_fun sh (fun idx => get (Nd s x) (pick ls idx))). splits; try reflexivity.
    unfold np_index. cbn [shp]. now rewrite Hx.
Qed.

(** ---- the sequence of requests ---- *)

Lemma same_bounds_eq : forall b c, same_bounds b c = true <-> b = c.
Proof.
  intros [[a e] st] [[a' e'] st']. unfold same_bounds. rewrite !andb_true_iff, !Z.eqb_eq. split.
  - intros [[-> ->] H]. destruct st, st'; try discriminate; [|reflexivity]. apply Z.eqb_eq in H. now subst.
  - intros H. injection H as -> -> ->. splits; auto. destruct st'; [apply Z.eqb_refl|reflexivity].
Qed.

Lemma same_key_eq : forall k l, same_key k l = true <-> k = l.
Proof.
  induction k as [|b k IH]; intros [|c l]; cbn [same_key]; try (split; [discriminate|congruence]); [tauto|].
  rewrite andb_true_iff, same_bounds_eq, IH. split; [intros [-> ->]; reflexivity|intros H; injection H; auto].
Qed.

Definition piece_ok (x : array_var) (p : piece) : Prop :=
  src_indices (av_shape x) (pc_key p) = Some (pc_src p) /\
  index_shape (av_val x) (pc_key p) = Some (pc_shape p).

Definition good (x : array_var) : Prop :=
  match av_decomp x with
  | None => av_called x = false -> av_next x = 0%nat
  | Some ps => av_called x = true /\ Forall (piece_ok x) ps /\ map pc_id ps = seq 0 (length ps) /\
               av_next x = length ps /\ NoDup (map pc_key ps)
  end.

Lemma find_piece_spec : forall ps nk p, find_piece ps nk = Some p -> In p ps /\ pc_key p = nk.
Proof.
  intros ps nk p H. apply find_some in H. destruct H as [H1 H2]. split; [assumption|]. now apply same_key_eq.
Qed.

Lemma find_piece_none : forall ps nk, find_piece ps nk = None -> ~ In nk (map pc_key ps).
Proof.
  intros ps nk H Hin. apply in_map_iff in Hin. destruct Hin as (p & <- & Hp).
  pose proof (find_none _ _ H p Hp) as E. cbn in E.
  assert (same_key (pc_key p) (pc_key p) = true) by (now apply same_key_eq). congruence.
Qed.

Lemma NoDup_ids : forall ps p q, map pc_id ps = seq 0 (length ps) -> In p ps -> In q ps -> pc_id p = pc_id q -> p = q.
Proof.
  intros ps p q H Hp Hq E. assert (ND : NoDup (map pc_id ps)) by (rewrite H; apply seq_NoDup). clear H.
  induction ps as [|r ps IH]; [destruct Hp|]. cbn in ND. inversion_clear ND as [|? ? Hn ND'].
  destruct Hp as [->|Hp], Hq as [->|Hq]; auto.
  - elim Hn. rewrite E. now apply in_map.
  - elim Hn. rewrite <- E. now apply in_map.
Qed.

Lemma piece_of_in : forall x ps p, good x -> av_decomp x = Some ps -> In p ps -> piece_of x (pc_id p) = Some p.
Proof.
  intros x ps p Hg E Hp. unfold piece_of, good in *. rewrite E in *. destruct Hg as (_ & _ & Hid & _).
  destruct (find (fun q => Nat.eqb (pc_id q) (pc_id p)) ps) as [q|] eqn:F.
  - apply find_some in F. destruct F as [F1 F2]. apply Nat.eqb_eq in F2. f_equal.
    apply (NoDup_ids ps); auto.
  - pose proof (find_none _ _ F p Hp) as E'. cbn in E'. rewrite Nat.eqb_refl in E'. discriminate.
Qed.

Definition pieces (x : array_var) : list piece := match av_decomp x with Some ps => ps | None => [] end.

(** one request *)
Lemma getitem_step : forall x k x' r, good x -> getitem x k = (x', r) ->
  good x' /\ av_shape x' = av_shape x /\ av_val x' = av_val x /\
  (exists l, pieces x' = pieces x ++ l) /\
  (forall e, r = Some e -> exists nk p, norm_key (av_shape x) k = Some nk /\ av_decomp x' = Some (pieces x') /\
      In p (pieces x') /\ pc_key p = nk /\ pc_id p = e).
Proof.
  intros x k x' r Hg H. unfold getitem in H.
  assert (K : forall x1, good x1 -> av_called x1 = true -> av_shape x1 = av_shape x -> av_val x1 = av_val x ->
     pieces x1 = pieces x -> av_next x1 = av_next x ->
     match norm_key (av_shape x) k with
     | None => (x1, None)
     | Some nk =>
         match av_decomp x1 with
         | None => (x1, None)
         | Some ps =>
             match find_piece ps nk with
             | Some p => (x1, Some (pc_id p))
             | None =>
                 match src_indices (av_shape x) nk, index_shape (av_val x) nk with
                 | Some src, Some sh =>
                     (ArrayVar (av_shape x) (av_val x) true
                        (Some (ps ++ [Piece nk (av_next x) sh src])) (S (av_next x)),
                      Some (av_next x))
                 | _, _ => (x1, None)
                 end
             end
         end
     end = (x', r) ->
     good x' /\ av_shape x' = av_shape x /\ av_val x' = av_val x /\
     (exists l, pieces x' = pieces x ++ l) /\
     (forall e, r = Some e -> exists nk p, norm_key (av_shape x) k = Some nk /\ av_decomp x' = Some (pieces x') /\
        In p (pieces x') /\ pc_key p = nk /\ pc_id p = e)).
  { clear H Hg. intros x1 Hg Hc Hs Hv Hp Hn H.
    assert (Q : (x1, None) = (x', r) -> good x' /\ av_shape x' = av_shape x /\ av_val x' = av_val x /\
       (exists l, pieces x' = pieces x ++ l) /\
       (forall e, r = Some e -> exists nk p, norm_key (av_shape x) k = Some nk /\ av_decomp x' = Some (pieces x') /\
        In p (pieces x') /\ pc_key p = nk /\ pc_id p = e)).
    { intros E. injection E as <- <-. splits; auto; [|discriminate]. exists []. now rewrite app_nil_r. }
    destruct (norm_key (av_shape x) k) as [nk|] eqn:En; [|auto].
    destruct (av_decomp x1) as [ps|] eqn:Ed; [|auto].
    assert (Hps : pieces x1 = ps) by (unfold pieces; now rewrite Ed).
    destruct (find_piece ps nk) as [p|] eqn:Ef.
    - injection H as <- <-. apply find_piece_spec in Ef. destruct Ef as [Hin Hk]. splits; auto.
      + exists []. now rewrite app_nil_r.
      + intros e E. injection E as <-. exists nk, p. rewrite Hps. auto.
    - destruct (src_indices (av_shape x) nk) as [src|] eqn:Es; [|auto].
      destruct (index_shape (av_val x) nk) as [sh|] eqn:Ei; [|auto].
      injection H as <- <-. unfold good in Hg. rewrite Ed in Hg. destruct Hg as (_ & Hok & Hid & Hnx & ND).
      set (p := Piece nk (av_next x) sh src) in *. splits; try reflexivity.
      + unfold good. cbn [av_decomp av_called av_next av_shape av_val]. splits.
        * reflexivity.
        * apply Forall_app. split.
          -- eapply Forall_impl; [|exact Hok]. intros q [H1 H2]. unfold piece_ok in *.
             cbn [av_shape av_val]. rewrite Hs in H1. rewrite Hv in H2. auto.
          -- constructor; [|constructor]. unfold piece_ok. cbn [av_shape av_val pc_key pc_src pc_shape]. auto.
        * rewrite map_app, Hid, app_length, seq_app. cbn [map pc_id p length]. f_equal. cbn [seq].
          f_equal. rewrite <- Hn. rewrite Hnx. lia.
        * rewrite app_length. cbn [length]. lia.
        * rewrite map_app. cbn [map pc_key p]. apply NoDup_app_intro; [assumption|constructor; [intros []|constructor]|].
          intros q Hq [<-|[]]. exact (find_piece_none _ _ Ef Hq).
      + exists [p]. unfold pieces at 1. cbn [av_decomp]. now rewrite <- Hp, Hps.
      + intros e E. injection E as <-. exists nk, p. unfold pieces. cbn [av_decomp].
        splits; auto. apply in_or_app. right. now left. }
  destruct (av_called x) eqn:Ec.
  - cbn [negb andb] in H. apply (K x); auto.
  - cbn [negb andb] in H.
    assert (Hd : av_decomp x = None).
    { unfold good in Hg. destruct (av_decomp x); [|reflexivity]. destruct Hg as [Hc _]. congruence. }
    assert (Hp : pieces x = []) by (unfold pieces; now rewrite Hd).
    unfold good in Hg. rewrite Hd in Hg. specialize (Hg Ec).
    destruct (val_key_ok (av_val x) k) eqn:Ev; cbn [negb] in H.
    + match type of H with context [match av_decomp ?y with _ => _ end] => apply (K y) in H end; auto.
      unfold good. cbn [av_decomp av_called av_next av_shape av_val]. splits; auto. constructor.
    + injection H as <- <-. splits; try reflexivity; try discriminate.
      exists []. now rewrite Hp.
Qed.

Lemma fresh_good : forall s vs, good (fresh_var s vs).
Proof. intros s vs. unfold good, fresh_var. cbn. reflexivity. Qed.

Lemma getitems_step : forall ks x x' rs, good x -> getitems x ks = (x', rs) ->
  good x' /\ av_shape x' = av_shape x /\ av_val x' = av_val x /\
  (exists l, pieces x' = pieces x ++ l) /\
  (some_accepted rs \/ (av_decomp x <> None) -> av_decomp x' <> None) /\
  (ks = [] -> x' = x).
Proof.
  induction ks as [|k ks IH]; intros x x' rs Hg H; cbn [getitems] in H.
  - injection H as <- <-. splits; auto.
    + exists []. now rewrite app_nil_r.
    + intros [[e []]|E]; assumption.
  - destruct (getitem x k) as [x1 r] eqn:E1. destruct (getitems x1 ks) as [x2 rs'] eqn:E2.
    injection H as <- <-. destruct (getitem_step _ _ _ _ Hg E1) as (G1 & S1 & V1 & (l & P1) & R1).
    destruct (IH _ _ _ G1 E2) as (G2 & S2 & V2 & (l2 & P2) & D2 & _). splits; try congruence.
    + exists (l ++ l2). now rewrite P2, P1, app_assoc.
    + intros [[e [->|He]]|E].
      * apply D2. right. destruct (R1 e eq_refl) as (nk & p & _ & Ed & _). congruence.
      * apply D2. left. now exists e.
      * apply D2. right. clear - E1 E Hg. intros Hn. apply E. unfold getitem in E1.
        destruct (av_decomp x) as [ps|] eqn:Ed; [|reflexivity]. exfalso.
        destruct (av_called x) eqn:Ec; cbn [negb andb] in E1.
        -- rewrite Ed in E1. destruct (norm_key (av_shape x) k); [|injection E1 as <- <-; congruence].
           destruct (find_piece ps l); [injection E1 as <- <-; congruence|].
           destruct (src_indices (av_shape x) l); [|injection E1 as <- <-; congruence].
           destruct (index_shape (av_val x) l); injection E1 as <- <-; cbn in *; congruence.
        -- unfold good in Hg. rewrite Ed in Hg. destruct Hg as [Hc _]. congruence.
Qed.

(** C17 *)
Lemma index_value : forall s ks k x rs x' e, plain_key k ->
  getitems (fresh_var s s) ks = (x, rs) -> getitem x k = (x', Some e) ->
  exists p c, piece_of x' e = Some p /\ decompose_comp s p = Some c /\
    c_ins c = [s] /\ c_out c = pc_shape p /\ correct c (selects k).
Proof.
  intros s ks k x rs x' e Hp H1 H2.
  destruct (getitems_step _ _ _ _ (fresh_good s s) H1) as (G & S & V & _).
  cbn [av_shape av_val fresh_var] in S, V.
  destruct (getitem_step _ _ _ _ G H2) as (G' & S' & V' & _ & R).
  destruct (R e eq_refl) as (nk & p & En & Ed & Hin & Hk & <-).
  assert (Hok : piece_ok x' p).
  { unfold good in G'. rewrite Ed in G'. destruct G' as (_ & F & _). rewrite Forall_forall in F. auto. }
  destruct Hok as [O1 O2]. rewrite S', S in O1. rewrite V', V in O2. rewrite S in En. rewrite Hk in O1, O2.
  destruct (piece_correct s k nk p Hp En Hk O1 O2) as (c & C).
  exists p, c. split; [|assumption]. now apply piece_of_in with (ps := pieces x').
Qed.

Lemma entries_ok_within : forall s l, Forall2 entry_within s l -> entries_ok s false l = true.
Proof.
  intros s l H. induction H as [|n k s l Hk H IH]; [reflexivity|].
  destruct k as [z|[a b st]| | |]; cbn [entry_within entries_ok] in *; try (exfalso; exact Hk).
  - rewrite IH, andb_true_r. apply andb_true_iff. split; [apply Z.leb_le|apply Z.ltb_lt]; lia.
  - rewrite IH, andb_true_r. destruct Hk as (_ & (e & q & _ & _ & Hq) & _). apply negb_true_iff, Z.eqb_neq. cbn in *. lia.
Qed.

Lemma val_ok_within : forall s k, key_within s k -> val_key_ok s k = true.
Proof. intros s [k|l] [_ H]; apply entries_ok_within; exact H. Qed.

(** C18 *)
Lemma index_accept : forall s ks k x rs, plain_key k ->
  getitems (fresh_var s s) ks = (x, rs) -> ks = [] \/ some_accepted rs ->
  ((exists e, snd (getitem x k) = Some e) <-> key_within s k).
Proof.
  intros s ks k x rs Hp H1 Hh.
  destruct (getitems_step _ _ _ _ (fresh_good s s) H1) as (G & S & V & _ & Hd & H0).
  cbn [av_shape av_val fresh_var] in S, V. split.
  - intros [e E]. destruct (getitem x k) as [x' r] eqn:E2. cbn [snd] in E. subst r.
    destruct (getitem_step _ _ _ _ G E2) as (G' & S' & V' & _ & R).
    destruct (R e eq_refl) as (nk & p & En & Ed & Hin & Hk & <-).
    unfold good in G'. rewrite Ed in G'. destruct G' as (_ & F & _). rewrite Forall_forall in F.
    destruct (F p Hin) as [O1 _]. rewrite S', S, Hk in O1. rewrite S in En.
    apply src_within; [assumption|]. exists nk, (pc_src p). split; assumption.
  - intros W. pose proof (val_ok_within _ _ W) as Hv.
    apply src_within in W; [|assumption]. destruct W as (nk & src & En & Es).
    destruct (src_spec _ _ _ _ Hp En Es) as (ls & _ & _ & Hsh & _).
    assert (Hx : av_called x = true -> exists ps, av_decomp x = Some ps).
    { intros Hc. destruct (av_decomp x) as [ps|] eqn:Ed; [now exists ps|]. exfalso.
      destruct Hh as [Hh|Hh]; [|apply Hd; auto]. rewrite (H0 Hh) in Hc. discriminate. }
    unfold getitem. rewrite S, V, En, Hv. destruct (av_called x) eqn:Ec; cbn [negb andb].
    + destruct (Hx eq_refl) as [ps ->]. destruct (find_piece ps nk); [eexists; reflexivity|].
      rewrite Es, Hsh. eexists; reflexivity.
    + cbn [av_decomp find_piece find]. rewrite Es, Hsh. eexists; reflexivity.
Qed.

(** once the first request failed inside NumPy nothing is ever accepted *)
Lemma index_broken : forall s vs k0 ks x rs, val_key_ok vs k0 = false ->
  getitems (fresh_var s vs) (k0 :: ks) = (x, rs) -> forall e, ~ In (Some e) rs.
Proof.
  intros s vs k0 ks x rs Hv H e. cbn [getitems] in H. unfold getitem in H.
  cbn [fresh_var av_called av_shape av_val av_decomp av_next negb andb] in H. rewrite Hv in H. cbn [negb] in H.
  set (x0 := ArrayVar s vs true None 0) in H.
  assert (K : forall ks x rs, getitems x0 ks = (x, rs) -> x = x0 /\ ~ In (Some e) rs).
  { clear. induction ks as [|k ks IH]; intros x rs H; cbn [getitems] in H.
    - injection H as <- <-. auto.
    - assert (E : getitem x0 k = (x0, None)).
      { unfold getitem. cbn [av_called x0 negb andb av_shape av_decomp]. destruct (norm_key s k); reflexivity. }
      rewrite E in H. destruct (getitems x0 ks) as [x2 rs'] eqn:E2. injection H as <- <-.
      destruct (IH _ _ eq_refl) as [-> Hn]. split; [reflexivity|]. intros [Hi|Hi]; [discriminate|auto]. }
  destruct (getitems x0 ks) as [x2 rs'] eqn:E2. injection H as <- <-.
  destruct (K _ _ _ E2) as [_ Hn]. intros [Hi|Hi]; [discriminate|auto].
Qed.

Lemma getitem_find : forall x k x' e, good x -> getitem x k = (x', Some e) ->
  exists p nk, norm_key (av_shape x) k = Some nk /\ In p (pieces x') /\ pc_key p = nk /\ pc_id p = e.
Proof.
  intros x k x' e G H. destruct (getitem_step _ _ _ _ G H) as (_ & _ & _ & _ & R).
  destruct (R e eq_refl) as (nk & p & A & B & C & D & E). exists p, nk. auto.
Qed.

Lemma spelled_zip : forall s l, Forall is_plain l -> spelled_key s l = zipb s l.
Proof.
  unfold zipb. induction s as [|n s IH]; intros [|k l] H; try reflexivity.
  inversion_clear H as [|? ? Hk Hr]. cbn [spelled_key combine map fst snd]. rewrite IH by assumption. f_equal.
  destruct k as [z|[a b st]| | |]; try (exfalso; exact Hk); reflexivity.
Qed.

Lemma pieces_key_id : forall x p q, good x -> In p (pieces x) -> In q (pieces x) ->
  (pc_id p = pc_id q <-> pc_key p = pc_key q).
Proof.
  intros x p q G Hp Hq. unfold good, pieces in *. destruct (av_decomp x) as [ps|]; [|destruct Hp].
  destruct G as (_ & _ & Hid & _ & ND). split.
  - intros E. now rewrite (NoDup_ids ps p q Hid Hp Hq E).
  - intros E. f_equal. revert ND Hp Hq E. clear. intros ND Hp Hq E.
    induction ps as [|r ps IH]; [destruct Hp|]. cbn in ND. inversion_clear ND as [|? ? Hn ND'].
    destruct Hp as [->|Hp], Hq as [->|Hq]; auto.
    + elim Hn. rewrite E. now apply in_map.
    + elim Hn. rewrite <- E. now apply in_map.
Qed.

Lemma accepted_rank : forall s ks k x rs x' e, plain_key k ->
  getitems (fresh_var s s) ks = (x, rs) -> getitem x k = (x', Some e) ->
  norm_key s k = Some (spelled_key s (key_entries k)).
Proof.
  intros s ks k x rs x' e Hp H1 H2.
  destruct (getitems_step _ _ _ _ (fresh_good s s) H1) as (G & S & V & _).
  cbn [av_shape av_val fresh_var] in S, V.
  destruct (getitem_step _ _ _ _ G H2) as (G' & S' & V' & _ & R).
  destruct (R e eq_refl) as (nk & p & En & Ed & Hin & Hk & <-).
  unfold good in G'. rewrite Ed in G'. destruct G' as (_ & F & _). rewrite Forall_forall in F.
  destruct (F p Hin) as [O1 _]. rewrite S', S, Hk in O1. rewrite S in En.
  assert (W : key_within s k) by (apply src_within; [assumption|]; exists nk, (pc_src p); split; assumption).
  destruct W as [_ W]. rewrite spelled_zip by assumption. apply norm_key_zip; [assumption|].
  symmetry. exact (Forall2_len _ _ _ _ _ W).
Qed.

Lemma getitems_app : forall ks ks' x,
  getitems x (ks ++ ks') =
  let (x1, r1) := getitems x ks in let (x2, r2) := getitems x1 ks' in (x2, r1 ++ r2).
Proof.
  induction ks as [|k ks IH]; intros ks' x; cbn [getitems app].
  - now destruct (getitems x ks').
  - destruct (getitem x k) as [x1 r]. rewrite IH. destruct (getitems x1 ks) as [x2 rs].
    now destruct (getitems x2 ks') as [x3 rs3].
Qed.

(** C19 *)
Lemma index_same : forall s ks k1 ks' k2 x0 rs0 x1 e1 x2 rs x3 e2, plain_key k1 -> plain_key k2 ->
  getitems (fresh_var s s) ks = (x0, rs0) -> getitem x0 k1 = (x1, Some e1) ->
  getitems x1 ks' = (x2, rs) -> getitem x2 k2 = (x3, Some e2) ->
  (e1 = e2 <-> spelled_key s (key_entries k1) = spelled_key s (key_entries k2)) /\
  piece_of x3 e1 = piece_of x1 e1.
Proof.
  intros s ks k1 ks' k2 x0 rs0 x1 e1 x2 rs x3 e2 Hp1 Hp2 H0 H1 H2 H3.
  destruct (getitems_step _ _ _ _ (fresh_good s s) H0) as (G0 & S0 & _).
  destruct (getitem_step _ _ _ _ G0 H1) as (G1 & S1 & _ & _ & R1).
  destruct (getitems_step _ _ _ _ G1 H2) as (G2 & S2 & _ & (l & P2) & _).
  destruct (getitem_step _ _ _ _ G2 H3) as (G3 & S3 & _ & (l' & P3) & R3).
  cbn [av_shape fresh_var] in S0. rewrite S0 in S1. rewrite S1 in S2.
  destruct (R1 e1 eq_refl) as (nk1 & p1 & En1 & Ed1 & In1 & K1 & <-).
  destruct (R3 e2 eq_refl) as (nk2 & p2 & En2 & Ed3 & In2 & K2 & <-).
  assert (In1' : In p1 (pieces x3)) by (rewrite P3, P2; apply in_or_app; left; apply in_or_app; now left).
  split.
  - rewrite (pieces_key_id x3 p1 p2 G3 In1' In2), K1, K2.
    rewrite S0, (accepted_rank s ks k1 x0 rs0 x1 (pc_id p1) Hp1 H0 H1) in En1. injection En1 as <-.
    assert (Hall : getitems (fresh_var s s) (ks ++ k1 :: ks') = (x2, rs0 ++ Some (pc_id p1) :: rs)).
    { rewrite getitems_app, H0. cbn [getitems]. now rewrite H1, H2. }
    rewrite S2, (accepted_rank s _ k2 x2 _ x3 (pc_id p2) Hp2 Hall H3) in En2. injection En2 as <-. tauto.
  - rewrite (piece_of_in x3 (pieces x3) p1 G3 Ed3 In1'). now rewrite (piece_of_in x1 (pieces x1) p1 G1 Ed1 In1).
Qed.

(** ---- expressions whose value was not given ---- *)

Lemma positions_one : forall a b st, 0 <= a -> 0 <= b -> or_else st 1 <> 0 ->
  exists l, sl_positions 1 (Slice (Some a) (Some b) st) = Some l /\
    length l = (if (a =? 0) && (0 <? b) && (0 <? or_else st 1) then 1%nat else 0%nat).
Proof.
  intros a b st Ha Hb Hst. unfold sl_positions. cbn [sl_start sl_stop sl_step sl_clip].
  set (t := or_else st 1) in *. change (Z.of_nat 1) with 1.
  destruct (Z.ltb_spec a 0); [lia|]. destruct (Z.ltb_spec b 0); [lia|].
  unfold py_range. rewrite (proj2 (Z.eqb_neq t 0) Hst). eexists. split; [reflexivity|].
  rewrite !map_length, seq_length.
  assert (Hz : forall a' b', (forall k, (k < range_len a' b' t)%nat -> (k < 0)%nat) -> range_len a' b' t = 0%nat).
  { intros a' b' H1. destruct (range_len a' b' t) eqn:E; [reflexivity|]. specialize (H1 0%nat). lia. }
  destruct (Z.ltb_spec t 0).
  - replace (0 <? t) with false by (symmetry; apply Z.ltb_ge; lia). rewrite andb_false_r.
    apply Hz. intros k Hk. apply range_len_spec in Hk; [|assumption]. nia.
  - replace (0 <? t) with true by (symmetry; apply Z.ltb_lt; lia). rewrite andb_true_r.
    destruct (Z.eqb_spec a 0) as [->|Ha0]; cbn [andb].
    + destruct (Z.ltb_spec 0 b).
      * apply nat_same. intros k. rewrite range_len_spec by assumption. split; intros Hk; [nia|].
        assert (k = 0)%nat by lia. subst k. left. lia.
      * apply Hz. intros k Hk. apply range_len_spec in Hk; [|assumption]. nia.
    + apply Hz. intros k Hk. apply range_len_spec in Hk; [|assumption]. nia.
Qed.

Lemma index_unknown : forall s ks k x rs x' e, plain_key k ->
  getitems (fresh_var s [1]%nat) ks = (x, rs) -> getitem x k = (x', Some e) ->
  exists n p, s = [n] /\ piece_of x' e = Some p /\
    (only_first n k /\ (exists c, decompose_comp s p = Some c /\ correct c (selects k)) \/
     ~ only_first n k /\ decompose_comp s p = None).
Proof.
  intros s ks k x rs x' e Hp H1 H2.
  destruct (getitems_step _ _ _ _ (fresh_good s [1]%nat) H1) as (G & S & V & _).
  cbn [av_shape av_val fresh_var] in S, V.
  destruct (getitem_step _ _ _ _ G H2) as (G' & S' & V' & _ & R).
  destruct (R e eq_refl) as (nk & p & En & Ed & Hin & Hk & <-).
  assert (Hok : piece_ok x' p).
  { unfold good in G'. rewrite Ed in G'. destruct G' as (_ & F & _). rewrite Forall_forall in F. auto. }
  destruct Hok as [O1 O2]. rewrite S', S, Hk in O1. rewrite V', V, Hk in O2. rewrite S in En.
  assert (W : key_within s k) by (apply src_within; [assumption|]; exists nk, (pc_src p); split; assumption).
  destruct W as [Hne W].
  assert (Hl : length (key_entries k) = length s) by (symmetry; exact (Forall2_len _ _ _ _ _ W)).
  assert (En' := En). rewrite norm_key_zip in En' by assumption. injection En' as En'.
  (* one axis *)
  remember (key_entries k) as l eqn:El. destruct W as [|n k0 s l0 W0 W]; [congruence|].
  assert (Hs : s = [] /\ l0 = []).
  { destruct W as [|n' k' s l0 W1 W]; [auto|]. exfalso. unfold index_shape in O2.
    rewrite <- En' in O2. unfold zipb in O2. cbn [combine map fst snd index_positions] in O2.
    destruct (sl_positions 1 _) in O2; discriminate. }
  destruct Hs as [-> ->]. exists n, p. split; [reflexivity|].
  split; [apply piece_of_in with (ps := pieces x'); assumption|].
  assert (Hpl : is_plain k0) by (unfold plain_key in Hp; rewrite <- El in Hp; now inversion Hp).
  destruct (entry_bounds (Z.of_nat n) k0) as [[a b] st] eqn:Eb.
  assert (Enk : nk = [(a, b, st)]).
  { rewrite <- En'. unfold zipb. cbn [combine map fst snd]. now rewrite Eb. }
  assert (Esp : spelled_key [n] (key_entries k) = [(a, b, st)]).
  { rewrite spelled_zip by (rewrite <- El; constructor; [assumption|constructor]). rewrite <- El, En'. exact Enk. }
  destruct (entry_list n k0 Hpl) as [EL _]. destruct (EL W0) as (l1 & E1 & Hb1). rewrite Eb in E1.
  pose proof E1 as E1'. apply list_of_spec in E1'. destruct E1' as (Hb & zl & Er & Hn & Hz & ->).
  assert (Ha : 0 <= a /\ reaches a b (or_else st 1) a).
  { destruct zl as [|z zl]; [now elim Hn|].
    assert (Q : reaches a b (or_else st 1) z) by (apply (range_In _ _ _ _ Er); now left).
    apply reaches_start in Q. split; [|assumption]. apply Hz. now apply (range_In _ _ _ _ Er). }
  destruct Ha as [Ha Hra].
  assert (Hst : or_else st 1 <> 0) by (destruct Hra as (q & _ & _ & Hq); lia).
  destruct (positions_one a b st Ha Hb Hst) as (lp & Elp & Hlp).
  assert (Esh : pc_shape p = [length lp]).
  { rewrite Enk in O2. unfold index_shape in O2. cbn [map index_positions] in O2. rewrite Elp in O2.
    cbn [option_map map] in O2. now injection O2 as <-. }
  destruct (src_spec _ _ _ _ Hp En O1) as (ls & Hi & Hx & Hsh & Esrc).
  assert (Els : ls = [map Z.to_nat zl]).
  { rewrite <- El in Hx. cbn [map index_positions] in Hx.
    rewrite (entry_numpy n k0 (map Z.to_nat zl) W0 Hpl) in Hx by (rewrite Eb; exact E1). now injection Hx as <-. }
  assert (Hsz : size (shp (pc_src p)) = length zl).
  { rewrite Esrc, Els. cbn. rewrite map_length. lia. }
  destruct (Nat.leb (size (shp (pc_src p))) (size (pc_shape p))) eqn:Ele.
  - left. apply Nat.leb_le in Ele. rewrite Hsz, Esh in Ele. cbn [size] in Ele.
    destruct ((a =? 0) && (0 <? b) && (0 <? or_else st 1)) eqn:Ec.
    2: { destruct zl; [now elim Hn|]. cbn in Ele. lia. }
    apply andb_true_iff in Ec. destruct Ec as [Ec _]. apply andb_true_iff in Ec. destruct Ec as [Ec _].
    apply Z.eqb_eq in Ec. subst a.
    assert (Ezl : zl = [0]).
    { destruct zl as [|z [|z' zl]]; [now elim Hn| |cbn in Ele; lia].
      apply (range_In _ _ _ _ Er) in Hra. destruct Hra as [->|[]]. reflexivity. }
    split.
    + exists 0, b, st. split; [exact Esp|]. intros q. rewrite <- (range_In _ _ _ _ Er), Ezl. cbn [In].
      split; [intros [->|[]]; reflexivity|auto].
    + destruct (piece_correct [n] k nk p Hp En Hk O1) as (c & C1 & _ & _ & C4).
      * rewrite Hsh, Esh, Els, Hlp, Ezl. reflexivity.
      * exists c. auto.
  - right. split.
    + intros (a' & b' & st' & E' & Hr). rewrite Esp in E'. injection E' as <- <- <-.
      assert (a = 0) by (now apply Hr). subst a.
      assert (Hzl : forall z, In z zl <-> z = 0) by (intros z; rewrite (range_In _ _ _ _ Er); apply Hr).
      assert (H0st : 0 < or_else st 1).
      { destruct Hra as (q & _ & E0 & [[Hq _]|[Hq1 Hq2]]); lia. }
      assert (H0b : 0 < b) by (destruct Hra as (q & _ & E0 & [[_ Hq]|[Hq _]]); lia).
      assert (length zl = 1)%nat.
      { unfold py_range in Er. rewrite (proj2 (Z.eqb_neq _ 0) Hst) in Er. injection Er as <-.
        rewrite map_length, seq_length. apply nat_same. intros j.
        split; intros Hj.
        - assert (Q : 0 + Z.of_nat j * or_else st 1 = 0).
          { apply Hzl. apply in_map_iff. exists j. split; [reflexivity|]. apply in_seq. lia. }
          nia.
        - assert (j = 0)%nat by lia. subst j. apply range_len_spec; [assumption|]. left. lia. }
      apply Nat.leb_gt in Ele. rewrite Hsz, Esh in Ele. cbn [size] in Ele.
      rewrite Hlp in Ele. rewrite (proj2 (Z.ltb_lt _ _) H0st), (proj2 (Z.ltb_lt _ _) H0b) in Ele. cbn in Ele. lia.
    + unfold decompose_comp. now rewrite Ele.
Qed.

(** ---- refuted ---- *)

(** x of shape (3,) that is computed: x[1] raises, and x[0:2] is accepted but
    setup raises *)
Lemma index_computed_raises :
  (exists s k, key_within s k /\ snd (getitem (fresh_var s [1]%nat) k) = None) /\
  exists s k x' e p, key_within s k /\ getitem (fresh_var s [1]%nat) k = (x', Some e) /\
    piece_of x' e = Some p /\ decompose_comp s p = None.
Proof.
  split.
  { exists [3]%nat, (KOne (KInt 1)). split; [|reflexivity].
    split; [discriminate|constructor; [cbn; lia|constructor]]. }
  exists [3]%nat, (KOne (KSlice (Slice (Some 0) (Some 2) None))). do 3 eexists. splits.
  - split; [discriminate|constructor; [|constructor]]. cbn. splits; [lia|exists 0, 0; lia|].
    intros e (q & Hq & -> & H). lia.
  - vm_compute. reflexivity.
  - reflexivity.
  - reflexivity.
Qed.

(** x of shape (3,) given as an input: x[5] raises, and afterwards so does x[0] *)
Lemma index_after_error :
  exists s k0 k, key_within s k /\ plain_key k0 /\ ~ key_within s k0 /\
    snd (getitem (fresh_var s s) k) <> None /\
    snd (getitems (fresh_var s s) [k0; k]) = [None; None].
Proof.
  exists [3]%nat, (KOne (KInt 5)), (KOne (KInt 0)). splits.
  - split; [discriminate|constructor; [cbn; lia|constructor]].
  - repeat constructor.
  - intros [_ H]. inversion H as [|? ? ? ? H1 _]; subst. cbn in H1. lia.
  - discriminate.
  - reflexivity.
Qed.

(** x of shape (2, 2), x[None, 0, 1]: accepted, of shape (1, 1) *)
Lemma index_other_accepted :
  exists s l x' e p, In KNone l /\ getitem (fresh_var s s) (KTuple l) = (x', Some e) /\
    piece_of x' e = Some p /\ pc_shape p = [1; 1]%nat /\ val_key_ok s (KTuple l) = true.
Proof.
  exists [2; 2]%nat, [KNone; KInt 0; KInt 1]. do 3 eexists. splits; try (vm_compute; reflexivity). now left.
Qed.

(** ---- cases ---- *)

(** x of shape (3, 4), x[1:3, ::2] *)
Example index_case :
  let k := KTuple [KSlice (Slice (Some 1) (Some 3) None); KSlice (Slice None None (Some 2))] in
  plain_key k /\ key_within [3; 4]%nat k /\
  exists x' e p, getitem (fresh_var [3; 4]%nat [3; 4]%nat) k = (x', Some e) /\ piece_of x' e = Some p /\
    pc_shape p = [2; 2]%nat /\ map (dat (pc_src p)) [0; 1; 2; 3]%nat = [4; 6; 8; 10]%nat.
Proof.
  cbv zeta. splits.
  - repeat constructor.
  - split; [discriminate|]. constructor; [|constructor; [|constructor]]; cbn; splits; try lia.
    + exists 1, 0. lia.
    + intros e (q & Hq & -> & H). lia.
    + exists 0, 0. lia.
    + intros e (q & Hq & -> & H). lia.
  - do 3 eexists. splits; vm_compute; reflexivity.
Qed.

(** the same entries again, spelled differently, and others *)
Example index_again_case :
  snd (getitems (fresh_var [3]%nat [3]%nat)
        [KOne (KInt 1); KOne (KSlice (Slice (Some 1) (Some 2) None)); KTuple [KInt 1]; KOne (KInt 2); KOne (KInt 7)])
  = [Some 0; Some 0; Some 0; Some 1; None]%nat.
Proof. reflexivity. Qed.

(** y of shape (3,) that is computed, y[0] *)
Example index_first_case :
  exists x' e p, getitem (fresh_var [3]%nat [1]%nat) (KOne (KInt 0)) = (x', Some e) /\ piece_of x' e = Some p /\
    decompose_comp [3]%nat p <> None.
Proof. do 3 eexists. splits; [vm_compute; reflexivity|reflexivity|discriminate]. Qed.

Lemma index_only_within : forall s ks k x rs, plain_key k ->
  getitems (fresh_var s s) ks = (x, rs) -> ~ key_within s k -> snd (getitem x k) = None.
Proof.
  intros s ks k x rs Hp H Hw. destruct (getitem x k) as [x' [e|]] eqn:E; [|reflexivity]. exfalso. apply Hw.
  destruct (getitems_step _ _ _ _ (fresh_good s s) H) as (G & S & V & _).
  cbn [av_shape av_val fresh_var] in S, V.
  destruct (getitem_step _ _ _ _ G E) as (G' & S' & V' & _ & R).
  destruct (R e eq_refl) as (nk & p & En & Ed & Hin & Hk & <-).
  unfold good in G'. rewrite Ed in G'. destruct G' as (_ & F & _). rewrite Forall_forall in F.
  destruct (F p Hin) as [O1 _]. rewrite S', S, Hk in O1. rewrite S in En.
  apply src_within; [assumption|]. exists nk, (pc_src p). split; assumption.
Qed.
