(** [list(set(l))] lists the elements in ascending order as long as every element
    has its own place in the hash table, whose size follows from their number. *)
From Coq Require Import Sorted Permutation.
From Verif Require Import PyBase PySet PySetProofs.

Definition distinct (l : list nat) : nat := length (nodup Nat.eq_dec l).

(** * Slots *)
Lemma slot_set t j k i : slot (set_slot t j k) i = if Nat.eqb i j then (if Nat.ltb j (length t) then Some k else None) else slot t i.
Proof.
  revert j i. induction t as [|s t IH]; intros j i; simpl.
  - replace (slot [] i) with (@None nat) by (unfold slot; now destruct i). now destruct (Nat.eqb i j).
  - destruct j as [|j], i as [|i]; simpl; try reflexivity.
    change (slot (s :: set_slot t j k) (S i)) with (slot (set_slot t j k) i). rewrite IH.
    change (slot (s :: t) (S i)) with (slot t i). reflexivity.
Qed.

Lemma set_slot_length t j k : length (set_slot t j k) = length t.
Proof. revert j. induction t as [|s t IH]; intros [|j]; simpl; auto. Qed.

Lemma elements_slot t k : In k (elements t) <-> exists j, slot t j = Some k.
Proof.
  induction t as [|s t IH]; simpl.
  - split; [tauto|]. intros (j & H). unfold slot in H. destruct j; discriminate.
  - assert (E : (exists j, slot (s :: t) j = Some k) <-> s = Some k \/ exists j, slot t j = Some k).
    { split.
      - intros ([|j] & H); [now left|right; now exists j].
      - intros [->|(j & H)]; [now exists 0|now exists (S j)]. }
    rewrite E, <- IH. destruct s as [x|]; simpl; intuition congruence.
Qed.

Lemma slot_bound t j k : slot t j = Some k -> j < length t.
Proof. unfold slot. destruct (nth_error t j) eqn:E; [|discriminate]. intros _. apply nth_error_Some. congruence. Qed.

Lemma elements_set t j k : slot t j = None -> j < length t ->
  Permutation (elements (set_slot t j k)) (k :: elements t).
Proof.
  revert j. induction t as [|s t IH]; intros j H L; simpl in *; [lia|].
  destruct j as [|j]; simpl.
  - unfold slot in H. simpl in H. subst s. reflexivity.
  - change (slot t j = None) in H. specialize (IH j H ltac:(lia)).
    destruct s as [x|]; [|assumption]. rewrite IH. apply perm_swap.
Qed.

(** * Probing *)
Lemma linear_sound t key : forall n i b j, linear t key i n = Some (b, j) ->
  slot t j = if b then Some key else None.
Proof.
  induction n as [|n IH]; intros i b j H; cbn [linear] in H;
    destruct (slot t i) as [x|] eqn:E; try (injection H as <- <-; exact E);
    destruct (Nat.eqb_spec x key) as [->|]; try (injection H as <- <-; exact E); [discriminate|].
  now apply IH in H.
Qed.

Lemma linear_bound t key : forall n i b j, i + n < length t -> linear t key i n = Some (b, j) -> j < length t.
Proof.
  induction n as [|n IH]; intros i b j L H; cbn [linear] in H;
    destruct (slot t i) as [x|] eqn:E; try (injection H as <- <-; lia);
    destruct (Nat.eqb_spec x key) as [->|]; try (injection H as <- <-; lia); [discriminate|].
  apply IH in H; [assumption|lia].
Qed.

(** filling a free place does not change what was found before it *)
Lemma linear_kept t key j' k' : slot t j' = None -> forall n i r, linear t key i n = r ->
  match r with Some (false, _) => True | _ => linear (set_slot t j' k') key i n = r end.
Proof.
  intros F. induction n as [|n IH]; intros i r H; cbn [linear] in *;
    destruct (slot t i) as [x|] eqn:E; try (subst r; exact I);
    rewrite slot_set; destruct (Nat.eqb_spec i j') as [->|_]; try congruence; rewrite E;
    destruct (Nat.eqb_spec x key); try (subst r; reflexivity).
  now apply IH.
Qed.

Lemma linear_placed t key j : j < length t -> forall n i, linear t key i n = Some (false, j) ->
  linear (set_slot t j key) key i n = Some (true, j).
Proof.
  intros L. induction n as [|n IH]; intros i H; cbn [linear] in *;
    (destruct (slot t i) as [x|] eqn:E;
     [|injection H as ->; rewrite slot_set, Nat.eqb_refl; apply Nat.ltb_lt in L; rewrite L, Nat.eqb_refl; reflexivity]);
    (destruct (Nat.eqb_spec x key); [discriminate|]); [discriminate|].
  rewrite slot_set. destruct (Nat.eqb_spec i j) as [->|_].
  - apply linear_sound in H. congruence.
  - rewrite E. destruct (Nat.eqb_spec x key); [congruence|]. now apply IH.
Qed.

Definition probes_at (t : table) (i : nat) : nat := if Nat.leb (i + 9) (length t - 1) then 9 else 0.
Lemma probe_unfold f t key i p : probe (S f) t key i p =
  match linear t key i (probes_at t i) with
  | Some r => Some r
  | None => probe f t key ((i * 5 + 1 + p / 32) mod length t) (p / 32)
  end.
Proof. reflexivity. Qed.

Lemma probes_at_bound t i : i < length t -> i + probes_at t i < length t.
Proof. unfold probes_at. intros H. destruct (Nat.leb_spec (i + 9) (length t - 1)); lia. Qed.

Lemma probe_sound t key : 0 < length t -> forall f i p b j, i < length t -> probe f t key i p = Some (b, j) ->
  slot t j = (if b then Some key else None) /\ j < length t.
Proof.
  intros L. induction f as [|f IH]; intros i p b j Hi H; [discriminate|]. rewrite probe_unfold in H.
  destruct (linear t key i (probes_at t i)) as [[b' j']|] eqn:E.
  - injection H as -> ->. split; [now apply linear_sound in E|].
    apply linear_bound in E; [assumption|]. now apply probes_at_bound.
  - apply IH in H; [assumption|]. apply Nat.mod_upper_bound. lia.
Qed.

Lemma probe_kept t key j' k' : slot t j' = None -> forall f i p j, probe f t key i p = Some (true, j) ->
  probe f (set_slot t j' k') key i p = Some (true, j).
Proof.
  intros F. induction f as [|f IH]; intros i p j H; [discriminate|]. rewrite probe_unfold in *.
  unfold probes_at in *. rewrite set_slot_length.
  destruct (linear t key i _) as [[b' x]|] eqn:E.
  - injection H as -> ->. apply (linear_kept t key j' k' F) in E. now rewrite E.
  - apply (linear_kept t key j' k' F) in E. rewrite E. now apply IH.
Qed.

Lemma probe_placed t key j : j < length t -> slot t j = None -> forall f i p, probe f t key i p = Some (false, j) ->
  probe f (set_slot t j key) key i p = Some (true, j).
Proof.
  intros L F. induction f as [|f IH]; intros i p H; [discriminate|]. rewrite probe_unfold in *.
  unfold probes_at in *. rewrite set_slot_length.
  destruct (linear t key i _) as [[b' x]|] eqn:E.
  - injection H as -> ->. rewrite (linear_placed t key j L _ _ E). reflexivity.
  - apply (linear_kept t key j key F) in E. rewrite E. now apply IH.
Qed.

(** without perturbation the rounds visit every place *)
Fixpoint hop (m n i : nat) : nat := match n with 0 => i | S n' => hop m n' ((i * 5 + 1) mod m) end.

Lemma linear_free t key i : slot t i = None -> forall n, linear t key i n = Some (false, i).
Proof. intros H [|n]; cbn [linear]; now rewrite H. Qed.

Lemma probe_hop t key : forall n f i, n < f -> slot t (hop (length t) n i) = None -> probe f t key i 0 <> None.
Proof.
  induction n as [|n IH]; intros [|f] i L H; try lia; rewrite probe_unfold.
  - simpl in H. rewrite (linear_free t key i H). discriminate.
  - destruct (linear t key i _); [discriminate|].
    change (0 / 32) with 0. rewrite Nat.add_0_r. apply IH; [lia|exact H].
Qed.

Definition visits (m : nat) : bool :=
  forallb (fun i => forallb (fun j => existsb (fun n => Nat.eqb (hop m n i) j) (seq 0 m)) (seq 0 m)) (seq 0 m).
Lemma visits_8 : visits 8 = true. Proof. vm_compute. reflexivity. Qed.
Lemma visits_32 : visits 32 = true. Proof. vm_compute. reflexivity. Qed.

Lemma visits_spec m i j : visits m = true -> i < m -> j < m -> exists n, n < m /\ hop m n i = j.
Proof.
  unfold visits. rewrite forallb_forall. intros H Hi Hj. specialize (H i ltac:(apply in_seq; lia)).
  rewrite forallb_forall in H. specialize (H j ltac:(apply in_seq; lia)).
  apply existsb_exists in H. destruct H as (n & Hn & E). exists n. apply in_seq in Hn. apply Nat.eqb_eq in E. split; [lia|assumption].
Qed.

(** a table of either size: every element is found, none twice *)
Record found (t : table) : Prop := {
  fd_all : forall k, In k (elements t) ->
    exists j, probe (64 + length t) t k (k mod length t) k = Some (true, j);
  fd_once : NoDup (elements t)
}.

Lemma elements_le t : length (elements t) <= length t.
Proof. induction t as [|[x|] t IH]; simpl; lia. Qed.

Lemma free_slot t : length (elements t) < length t -> exists j, j < length t /\ slot t j = None.
Proof.
  induction t as [|s t IH]; simpl; intros H; [lia|]. destruct s as [x|].
  - simpl in H. destruct IH as (j & L & E); [lia|]. exists (S j). split; [lia|exact E].
  - exists 0. split; [lia|reflexivity].
Qed.

Lemma probe_total t key : visits (length t) = true -> key < 1024 -> length (elements t) < length t ->
  probe (64 + length t) t key (key mod length t) key <> None.
Proof.
  intros V K L. assert (L0 : 0 < length t) by lia.
  destruct (free_slot t L) as (j & Lj & F).
  change (64 + length t) with (S (S (62 + length t))).
  rewrite probe_unfold. destruct (linear t key _ _); [discriminate|].
  set (i1 := (key mod length t * 5 + 1 + key / 32) mod length t). rewrite probe_unfold.
  destruct (linear t key i1 _); [discriminate|].
  assert (Z : key / 32 / 32 = 0).
  { rewrite Nat.div_div by lia. apply Nat.div_small. lia. }
  rewrite Z. set (i2 := (i1 * 5 + 1 + 0) mod length t).
  destruct (visits_spec (length t) i2 j V) as (n & Ln & E).
  - unfold i2. apply Nat.mod_upper_bound. lia.
  - assumption.
  - apply (probe_hop t key n); [lia|]. now rewrite E.
Qed.

Lemma insert_found t key : visits (length t) = true -> key < 1024 -> length (elements t) < length t -> found t ->
  let (t', fresh) := insert_raw t key in
  length t' = length t /\ found t' /\
  (fresh = true -> ~ In key (elements t) /\ Permutation (elements t') (key :: elements t)) /\
  (fresh = false -> In key (elements t) /\ t' = t).
Proof.
  intros V K L [A N]. unfold insert_raw.
  pose proof (probe_total t key V K L) as T.
  destruct (probe _ t key _ key) as [[[|] j]|] eqn:E; [| |congruence].
  - splits; [reflexivity|constructor; assumption|discriminate|]. intros _. split; [|reflexivity].
    apply elements_slot. exists j. apply probe_sound in E; [tauto|lia|apply Nat.mod_upper_bound; lia].
  - destruct (probe_sound t key ltac:(lia) _ _ _ _ _ (Nat.mod_upper_bound key (length t) ltac:(lia)) E) as [F Lj].
    assert (NI : ~ In key (elements t)).
    { intros H. apply A in H. destruct H as (j' & H). congruence. }
    assert (P := elements_set t j key F Lj).
    splits.
    + apply set_slot_length.
    + constructor.
      * intros k Hk. rewrite set_slot_length. apply (Permutation_in _ P) in Hk. destruct Hk as [<-|Hk].
        -- exists j. now apply probe_placed.
        -- destruct (A k Hk) as (j' & E'). exists j'. now apply probe_kept.
      * apply (Permutation_NoDup (Permutation_sym P)). now constructor.
    + intros _. auto.
    + discriminate.
Qed.

(** * A place for everyone *)
Definition direct (t : table) : Prop := forall j k, slot t j = Some k -> k = j.

Lemma insert_direct t key : direct t -> key < length t ->
  let (t', fresh) := insert_raw t key in
  length t' = length t /\ direct t' /\
  (fresh = true -> ~ In key (elements t) /\ Permutation (elements t') (key :: elements t)) /\
  (fresh = false -> In key (elements t) /\ t' = t).
Proof.
  intros D K. unfold insert_raw. change (64 + length t) with (S (63 + length t)). rewrite probe_unfold.
  rewrite Nat.mod_small by assumption.
  assert (X : linear t key key (probes_at t key) =
              Some (match slot t key with Some _ => true | None => false end, key)).
  { destruct (slot t key) as [x|] eqn:E; destruct (probes_at t key); cbn [linear]; rewrite E; try reflexivity;
      rewrite (D _ _ E), Nat.eqb_refl; reflexivity. }
  rewrite X. destruct (slot t key) as [x|] eqn:E.
  - splits; auto; try discriminate. intros _. split; [|reflexivity]. apply elements_slot. exists key.
    rewrite E. f_equal. now apply D in E.
  - assert (NI : ~ In key (elements t)).
    { intros H. apply elements_slot in H. destruct H as (j & H). pose proof (D _ _ H) as ->. congruence. }
    splits; auto; try discriminate.
    + apply set_slot_length.
    + intros j k H. rewrite slot_set in H. destruct (Nat.eqb_spec j key) as [->|]; [|now apply D].
      destruct (Nat.ltb key (length t)); congruence.
    + intros _. split; [assumption|]. now apply elements_set.
Qed.

Lemma elements_sorted : forall t a, (forall j k, slot t j = Some k -> k = a + j) ->
  StronglySorted lt (elements t) /\ forall k, In k (elements t) -> a <= k.
Proof.
  induction t as [|s t IH]; intros a D; simpl; [split; [constructor|simpl; tauto]|].
  destruct (IH (S a)) as [S1 S2].
  { intros j k H. specialize (D (S j) k H). lia. }
  destruct s as [x|].
  - assert (x = a) as -> by (specialize (D 0 x eq_refl); lia). split.
    + constructor; [assumption|]. apply Forall_forall. intros k Hk. apply S2 in Hk. lia.
    + intros k [<-|Hk]; [lia|]. apply S2 in Hk. lia.
  - split; [assumption|]. intros k Hk. apply S2 in Hk. lia.
Qed.

Lemma direct_sorted t : direct t -> StronglySorted lt (elements t).
Proof. intros D. apply (elements_sorted t 0). exact D. Qed.

Lemma empty_elements n : elements (repeat None n) = [].
Proof. induction n; simpl; auto. Qed.
Lemma empty_slot n j : slot (repeat None n) j = None.
Proof.
  unfold slot. destruct (nth_error _ j) as [s|] eqn:E; [|reflexivity]. apply nth_error_In, repeat_spec in E. assumption.
Qed.
Lemma empty_direct n : direct (repeat None n).
Proof. intros j k H. rewrite empty_slot in H. discriminate. Qed.
Lemma empty_found n : found (repeat None n).
Proof.
  constructor; [|rewrite empty_elements; constructor].
  intros k H. rewrite empty_elements in H. destruct H.
Qed.

Lemma insert_all_found m : visits m = true -> forall els t, length t = m -> found t ->
  (forall k, In k els -> k < 1024) -> length (elements t) + length els < m ->
  NoDup els -> (forall k, In k els -> ~ In k (elements t)) ->
  let t' := fold_left (fun t' k => fst (insert_raw t' k)) els t in
  length t' = m /\ found t' /\ Permutation (elements t') (els ++ elements t).
Proof.
  intros V. induction els as [|k els IH]; intros t Lt F B C N D; cbn [fold_left].
  - cbn zeta. simpl. auto.
  - cbn zeta in *. simpl in C. pose proof (insert_found t k) as I. rewrite Lt in I.
    specialize (I V (B k (or_introl eq_refl)) ltac:(lia) F).
    destruct (insert_raw t k) as [t1 fr]. cbn [fst]. destruct I as (L1 & F1 & I1 & I2).
    destruct fr; [|destruct (I2 eq_refl) as [X _]; exfalso; apply (D k); [now left|assumption]].
    destruct (I1 eq_refl) as [NI P]. clear I1 I2. apply NoDup_cons_iff in N. destruct N as [Nk N].
    destruct (IH t1) as (A1 & A2 & A3); auto.
    + intros x Hx. apply B. now right.
    + rewrite (Permutation_length P). simpl. lia.
    + intros x Hx Hx'. apply (Permutation_in _ P) in Hx'. destruct Hx' as [<-|Hx']; [contradiction|].
      apply (D x); [now right|assumption].
    + splits; auto. rewrite A3, P. rewrite Permutation_app_comm. simpl. constructor. apply Permutation_app_comm.
Qed.

Lemma insert_all_direct m : forall els t, length t = m -> direct t ->
  (forall k, In k els -> k < m) ->
  NoDup els -> (forall k, In k els -> ~ In k (elements t)) ->
  let t' := fold_left (fun t' k => fst (insert_raw t' k)) els t in
  length t' = m /\ direct t' /\ Permutation (elements t') (els ++ elements t).
Proof.
  induction els as [|k els IH]; intros t Lt F B N D; cbn [fold_left].
  - cbn zeta. simpl. auto.
  - cbn zeta in *. pose proof (insert_direct t k F) as I. rewrite Lt in I.
    specialize (I (B k (or_introl eq_refl))).
    destruct (insert_raw t k) as [t1 fr]. cbn [fst]. destruct I as (L1 & F1 & I1 & I2).
    destruct fr; [|destruct (I2 eq_refl) as [X _]; exfalso; apply (D k); [now left|assumption]].
    destruct (I1 eq_refl) as [NI P]. clear I1 I2. apply NoDup_cons_iff in N. destruct N as [Nk N].
    destruct (IH t1) as (A1 & A2 & A3); auto.
    + intros x Hx. apply B. now right.
    + intros x Hx Hx'. apply (Permutation_in _ P) in Hx'. destruct Hx' as [<-|Hx']; [contradiction|].
      apply (D x); [now right|assumption].
    + splits; auto. rewrite A3, P. rewrite Permutation_app_comm. simpl. constructor. apply Permutation_app_comm.
Qed.

Lemma direct_once t : direct t -> NoDup (elements t).
Proof.
  intros D. apply direct_sorted in D. induction D as [|x l S IH F]; constructor; [|assumption].
  rewrite Forall_forall in F. intros H. specialize (F x H). lia.
Qed.

Lemma grow_above : forall fuel minused size, 0 < size -> minused < size + fuel -> minused < grow fuel minused size /\ size <= grow fuel minused size.
Proof.
  induction fuel as [|f IH]; intros mu sz P L; cbn [grow]; [lia|].
  destruct (Nat.leb_spec sz mu); [|lia]. specialize (IH mu (2 * sz)). lia.
Qed.

(** * Adding elements below [W] *)
Definition sized (c len : nat) : Prop :=
  (c <= 4 /\ len = 8) \/ (5 <= c <= 18 /\ len = 32) \/ (19 <= c /\ 128 <= len).

Record holds (W : nat) (t : table) (p : list nat) : Prop := {
  ho_in : forall k, In k (elements t) <-> In k p;
  ho_once : NoDup (elements t);
  ho_size : sized (length (elements t)) (length t);
  ho_mode : (W <= length t /\ direct t) \/ (length t < W /\ found t)
}.

Lemma resize_holds W t p : W <= 128 -> (forall k, In k p -> k < W) -> 5 <= length (elements t) ->
  (forall k, In k (elements t) <-> In k p) -> NoDup (elements t) ->
  (length (elements t) = 5 \/ length (elements t) = 19 \/ (19 <= length (elements t) /\ 128 <= 4 * length (elements t))) ->
  holds W (resize t) p.
Proof.
  intros LW B C5 I N C. unfold resize. set (els := elements t) in *. set (m := grow (4 * length els) (4 * length els) 8).
  assert (Hm : (length els = 5 /\ m = 32) \/ (19 <= length els /\ 128 <= m)).
  { destruct C as [C|[C|[C C']]].
    - left. split; [assumption|]. unfold m. rewrite C. reflexivity.
    - right. split; [lia|]. unfold m. rewrite C. replace (grow (4 * 19) (4 * 19) 8) with 128 by reflexivity. lia.
    - right. split; [lia|]. destruct (grow_above (4 * length els) (4 * length els) 8); unfold m in *; lia. }
  assert (Bm : forall k, In k els -> k < W) by (intros k Hk; apply B, I, Hk).
  destruct (Nat.le_gt_cases W m) as [LE|GT].
  - destruct (insert_all_direct m els (repeat None m)) as (L1 & D1 & P1).
    + apply repeat_length.
    + apply empty_direct.
    + intros k Hk. specialize (Bm k Hk). lia.
    + assumption.
    + intros k _. rewrite empty_elements. simpl. tauto.
    + set (t' := fold_left _ els _) in *. rewrite empty_elements, app_nil_r in P1. constructor.
      * intros k. rewrite <- I. split; apply Permutation_in; [|apply Permutation_sym]; exact P1.
      * now apply (Permutation_NoDup (Permutation_sym P1)).
      * rewrite (Permutation_length P1), L1. unfold sized. lia.
      * left. rewrite L1. auto.
  - assert (E : length els = 5 /\ m = 32) by lia. destruct E as [E1 E2].
    destruct (insert_all_found m) with (els := els) (t := @repeat (option nat) None m) as (L1 & D1 & P1).
    + rewrite E2. exact visits_32.
    + apply repeat_length.
    + apply empty_found.
    + intros k Hk. specialize (Bm k Hk). lia.
    + rewrite empty_elements. simpl. lia.
    + assumption.
    + intros k _. rewrite empty_elements. simpl. tauto.
    + set (t' := fold_left _ els _) in *. rewrite empty_elements, app_nil_r in P1. constructor.
      * intros k. rewrite <- I. split; apply Permutation_in; [|apply Permutation_sym]; exact P1.
      * now apply (Permutation_NoDup (Permutation_sym P1)).
      * rewrite (Permutation_length P1), L1. unfold sized. lia.
      * right. rewrite L1. auto.
Qed.

Lemma add_holds W t p k : W <= 128 -> (forall x, In x (p ++ [k]) -> x < W) -> holds W t p -> holds W (set_add t k) (p ++ [k]).
Proof.
  intros LW B [I N Z M].
  assert (Kw : k < W) by (apply B, in_or_app; right; now left).
  assert (X : let (t', fresh) := insert_raw t k in
              length t' = length t /\
              ((W <= length t /\ direct t') \/ (length t < W /\ found t')) /\
              (fresh = true -> ~ In k (elements t) /\ Permutation (elements t') (k :: elements t)) /\
              (fresh = false -> In k (elements t) /\ t' = t)).
  { destruct M as [[M D]|[M F]].
    - pose proof (insert_direct t k D ltac:(lia)) as Y. destruct (insert_raw t k). tauto.
    - assert (V : visits (length t) = true /\ length (elements t) < length t).
      { destruct Z as [[Z1 Z2]|[[Z1 Z2]|[Z1 Z2]]]; [| |lia]; rewrite Z2; split; try lia; [exact visits_8|exact visits_32]. }
      destruct V as [V Y0].
      pose proof (insert_found t k V ltac:(lia) Y0 F) as Y. destruct (insert_raw t k). tauto. }
  unfold set_add. destruct (insert_raw t k) as [t' fresh]. destruct X as (L1 & M1 & X1 & X2).
  destruct fresh.
  - clear X2. destruct (X1 eq_refl) as [NI P]. clear X1.
    assert (I' : forall x, In x (elements t') <-> In x (p ++ [k])).
    { intros x. rewrite in_app_iff, <- I. split.
      - intros H. apply (Permutation_in _ P) in H. simpl in *. tauto.
      - intros H. apply (Permutation_in _ (Permutation_sym P)). simpl in *. tauto. }
    assert (N' : NoDup (elements t')).
    { apply (Permutation_NoDup (Permutation_sym P)). now constructor. }
    assert (C : length (elements t') = S (length (elements t))) by (rewrite (Permutation_length P); reflexivity).
    destruct (Nat.ltb_spec (5 * length (elements t')) (3 * (length t' - 1))) as [LT|GE].
    + constructor; auto.
      * unfold sized in *. lia.
      * rewrite L1. tauto.
    + apply resize_holds; auto; unfold sized in *; lia.
  - destruct (X2 eq_refl) as [Hk ->]. constructor; auto.
    intros x. rewrite in_app_iff, <- I. simpl. split; [tauto|]. intros [H|[<-|[]]]; auto.
Qed.

Lemma fold_holds W : W <= 128 -> forall l t p, (forall x, In x (p ++ l) -> x < W) -> holds W t p ->
  holds W (fold_left set_add l t) (p ++ l).
Proof.
  intros LW. induction l as [|k l IH]; intros t p B H; cbn [fold_left].
  - now rewrite app_nil_r.
  - replace (p ++ k :: l) with ((p ++ [k]) ++ l) in * by (rewrite <- app_assoc; reflexivity).
    apply IH; [assumption|]. apply add_holds; auto. intros x Hx. apply B, in_or_app. now left.
Qed.

Lemma distinct_elements l' l : NoDup l' -> (forall k, In k l' <-> In k l) -> length l' = distinct l.
Proof.
  intros N I. apply Nat.le_antisymm; apply NoDup_incl_length; auto.
  - intros x Hx. apply nodup_In, I, Hx.
  - apply NoDup_nodup.
  - intros x Hx. apply nodup_In in Hx. apply I, Hx.
Qed.

Lemma set_list_wide W l : W <= 128 -> (forall x, In x l -> x < W) ->
  W <= 8 \/ (5 <= distinct l /\ W <= 32) \/ (19 <= distinct l) ->
  ascending_listing (set_list l) l.
Proof.
  intros LW B C.
  assert (H : holds W (fold_left set_add l (repeat None 8)) ([] ++ l)).
  { apply fold_holds; auto. constructor; try rewrite empty_elements.
    - simpl. tauto.
    - constructor.
    - left. rewrite repeat_length. simpl. lia.
    - rewrite repeat_length. destruct (Nat.le_gt_cases W 8); [left|right]; split; auto.
      + apply empty_direct.
      + apply empty_found. }
  destruct H as [I N Z M]. simpl app in I. unfold set_list.
  set (t := fold_left set_add l (repeat None 8)) in *.
  pose proof (distinct_elements _ _ N I) as E. split; [|assumption].
  destruct M as [[_ D]|[M _]]; [now apply direct_sorted|].
  exfalso. unfold sized in Z. lia.
Qed.

(** one element, of any size *)
Lemma single_element : forall l k, (forall x, In x l -> x = k) -> l <> [] -> set_list l = [k].
Proof.
  intros l k H NE. unfold set_list. set (t1 := set_slot (repeat None 8) (k mod 8) k).
  assert (L8 : k mod 8 < 8) by (apply Nat.mod_upper_bound; lia).
  assert (D : forall n, slot t1 (k mod 8) = Some k /\ linear t1 k (k mod 8) n = Some (true, k mod 8)).
  { intros n. assert (S1 : slot t1 (k mod 8) = Some k).
    { unfold t1. rewrite slot_set, Nat.eqb_refl, repeat_length. apply Nat.ltb_lt in L8. now rewrite L8. }
    split; [assumption|]. destruct n; cbn [linear]; now rewrite S1, Nat.eqb_refl. }
  assert (LT : length t1 = 8) by (unfold t1; apply set_slot_length).
  assert (P1 : Permutation (elements t1) [k]).
  { unfold t1. change [k] with (k :: elements (repeat None 8)). apply elements_set; [apply empty_slot|exact L8]. }
  apply Permutation_sym, Permutation_length_1_inv in P1.
  assert (A : set_add t1 k = t1).
  { unfold set_add, insert_raw. rewrite LT. change (64 + 8) with (S 71). rewrite probe_unfold.
    rewrite (proj2 (D _)). reflexivity. }
  assert (A0 : set_add (repeat None 8) k = t1).
  { unfold set_add, insert_raw. rewrite repeat_length. change (64 + 8) with (S 71). rewrite probe_unfold.
    rewrite linear_free by apply empty_slot. fold t1. rewrite P1, LT. reflexivity. }
  assert (F : forall l', (forall x, In x l' -> x = k) -> fold_left set_add l' t1 = t1).
  { induction l' as [|x l' IH]; intros Hl; cbn [fold_left]; [reflexivity|].
    rewrite (Hl x (or_introl eq_refl)), A. apply IH. intros y Hy. apply Hl. now right. }
  destruct l as [|x l]; [congruence|]. cbn [fold_left]. rewrite (H x (or_introl eq_refl)), A0, F; [exact P1|].
  intros y Hy. apply H. now right.
Qed.

(** When the listing is ascending: the elements are below 8, or at most one, or
    numerous enough for a table in which each has its own place. *)
Definition placed (l : list nat) : Prop :=
  (forall x, In x l -> x < 8) \/ distinct l <= 1 \/
  (5 <= distinct l /\ forall x, In x l -> x < 32) \/
  (19 <= distinct l /\ forall x, In x l -> x < 128).

Theorem set_list_placed l : placed l -> ascending_listing (set_list l) l.
Proof.
  intros [H|[H|[[H1 H2]|[H1 H2]]]].
  - apply (set_list_wide 8); auto; lia.
  - destruct l as [|k l]; [split; [constructor|reflexivity]|].
    assert (A : forall x, In x (k :: l) -> x = k).
    { intros x Hx. unfold distinct in H. apply (nodup_In Nat.eq_dec) in Hx.
      assert (Hk : In k (nodup Nat.eq_dec (k :: l))) by (apply nodup_In; now left).
      destruct (nodup Nat.eq_dec (k :: l)) as [|a [|b r]]; simpl in *; try tauto; [|lia].
      destruct Hx as [<-|[]], Hk as [<-|[]]. reflexivity. }
    rewrite (single_element (k :: l) k A) by discriminate. split.
    + repeat constructor.
    + intros x. split.
      * intros [<-|[]]. now left.
      * intros Hx. left. symmetry. now apply A.
  - apply (set_list_wide 32); auto; lia.
  - apply (set_list_wide 128); auto; lia.
Qed.

(** none of the bounds can be raised *)
Lemma placed_sharp :
  ~ ascending_listing (set_list [1; 8]) [1; 8] /\
  ~ ascending_listing (set_list [1; 2; 3; 4; 32]) [1; 2; 3; 4; 32] /\
  ~ ascending_listing (set_list (128 :: seq 1 18)) (128 :: seq 1 18).
Proof.
  assert (G : forall l a b r, set_list l = a :: b :: r -> b < a -> ~ ascending_listing (set_list l) l).
  { intros l a b r E L [S _]. rewrite E in S. inversion S as [|x y S1 F]; subst. inversion F; subst. lia. }
  splits.
  - eapply G; [vm_compute; reflexivity|lia].
  - eapply G; [vm_compute; reflexivity|lia].
  - eapply G; [vm_compute; reflexivity|lia].
Qed.
