(** Proofs about [Names.gen_hex_name]. *)
From Verif Require Import PyBase Names.
From Coq Require Import Ascii String.
From Coq Require Import ZifyBool ZifyNat.
Open Scope Z_scope.

Definition chr (d : Z) : ascii := nth (Z.to_nat d) char_set "000"%char.

(** Value of a big-endian digit list in base 63. *)
Definition val (ds : list Z) : Z := fold_left (fun a d => a * 63 + d) ds 0.
Definition digits_ok (ds : list Z) : Prop := Forall (fun d => 0 <= d < 63) ds.

Lemma val_app ds d : val (ds ++ [d]) = val ds * 63 + d.
Proof. unfold val. now rewrite fold_left_app. Qed.

Lemma fold_val_acc : forall ds a,
  fold_left (fun a d => a * 63 + d) ds a
  = a * 63 ^ Z.of_nat (List.length ds) + val ds.
Proof.
  unfold val.
  induction ds as [|d ds IH]; intros a; cbn [fold_left List.length].
  - change (Z.of_nat 0) with 0. lia.
  - rewrite IH. rewrite (IH (0 * 63 + d)).
    rewrite Nat2Z.inj_succ, Z.pow_succ_r by lia. lia.
Qed.

Lemma val_app_gen ds es :
  val (ds ++ es) = val ds * 63 ^ Z.of_nat (List.length es) + val es.
Proof. unfold val at 1. rewrite fold_left_app. apply fold_val_acc. Qed.

Lemma val_bound ds : digits_ok ds -> 0 <= val ds < 63 ^ Z.of_nat (List.length ds).
Proof.
  intros H. induction ds as [|d ds IH] using rev_ind.
  - unfold val. simpl. lia.
  - apply Forall_app in H. destruct H as [H1 H2].
    inversion H2; subst. specialize (IH H1).
    rewrite val_app, app_length. cbn [List.length].
    replace (Z.of_nat (List.length ds + 1)) with (Z.succ (Z.of_nat (List.length ds))) by lia.
    rewrite Z.pow_succ_r by lia. lia.
Qed.

(** Digit lists of equal length with equal value are equal. *)
Lemma val_inj : forall n ds es,
  List.length ds = n -> List.length es = n ->
  digits_ok ds -> digits_ok es -> val ds = val es -> ds = es.
Proof.
  induction n as [|n IH]; intros ds es Hd He Dd De V.
  - destruct ds, es; simpl in *; try discriminate. reflexivity.
  - destruct ds as [|d ds] using rev_ind; [simpl in Hd; discriminate|clear IHds].
    destruct es as [|e es] using rev_ind; [simpl in He; discriminate|clear IHes].
    rewrite app_length in Hd, He; simpl in Hd, He.
    apply Forall_app in Dd. destruct Dd as [Dd1 Dd2].
    apply Forall_app in De. destruct De as [De1 De2].
    inversion Dd2 as [|? ? Hdr _]; subst. inversion De2 as [|? ? Her _]; subst.
    rewrite !val_app in V.
    assert (d = e /\ val ds = val es) as [-> V'] by lia.
    f_equal. apply IH; try assumption; lia.
Qed.

Lemma base_63 : base = 63.
Proof. reflexivity. Qed.

Lemma round53_small z : z < 2 ^ 53 -> round53 z = z.
Proof. intros H. unfold round53. destruct (Z.ltb_spec z (2 ^ 53)); lia. Qed.

Lemma round53_nonneg z : 0 <= z -> 0 <= round53 z.
Proof.
  intros H. unfold round53. destruct (Z.ltb_spec z (2 ^ 53)) as [L|L]; [lia|].
  cbv zeta.
  assert (0 <= Z.log2 z - 52).
  { apply Z.log2_le_mono in L. rewrite Z.log2_pow2 in L; lia. }
  assert (0 < 2 ^ (Z.log2 z - 52)) by (apply Z.pow_pos_nonneg; lia).
  assert (0 <= z / 2 ^ (Z.log2 z - 52)) by (apply Z.div_pos; lia).
  destruct (_ || _); apply Z.mul_nonneg_nonneg; lia.
Qed.

Lemma round53_le z : 0 <= z -> round53 z <= 2 * z.
Proof.
  intros H. unfold round53. destruct (Z.ltb_spec z (2 ^ 53)) as [L|L]; [lia|].
  cbv zeta.
  set (e := Z.log2 z - 52).
  assert (He : 0 <= e).
  { apply Z.log2_le_mono in L. rewrite Z.log2_pow2 in L; unfold e; lia. }
  assert (P : 0 < 2 ^ e) by (apply Z.pow_pos_nonneg; lia).
  assert (2 ^ e <= z).
  { apply Z.le_trans with (2 ^ Z.log2 z).
    - apply Z.pow_le_mono_r; unfold e; lia.
    - apply Z.log2_spec; lia. }
  assert (z / 2 ^ e * 2 ^ e <= z).
  { pose proof (Z.mul_div_le z (2 ^ e)). lia. }
  destruct (_ || _); lia.
Qed.

Lemma div_exact_step num : 0 <= num ->
  (num - num mod 63) / 63 = num / 63.
Proof.
  intros H. pose proof (Z.div_mod num 63).
  replace (num - num mod 63) with (num / 63 * 63) by lia.
  apply Z.div_mul. lia.
Qed.

(** The loop never runs out of rounds. *)
Lemma hex_loop_total : forall fuel num s p,
  0 <= num -> (num = 0 -> (0 < fuel)%nat) -> (0 < num -> Z.log2 num < Z.of_nat fuel) ->
  exists r, hex_loop fuel num s p = Some r.
Proof.
  induction fuel as [|f IH]; intros num s p H0 Hz Hf.
  - exfalso. destruct (Z.eq_dec num 0) as [E|E].
    + specialize (Hz E). lia.
    + assert (0 <= Z.log2 num) by apply Z.log2_nonneg. lia.
  - cbn [hex_loop]. rewrite base_63. unfold int_truediv.
    rewrite div_exact_step by lia.
    destruct (Z.eqb_spec (round53 (num / 63)) 0) as [E|E]; [eauto|].
    assert (Q : 0 <= num / 63) by (apply Z.div_pos; lia).
    pose proof (round53_nonneg _ Q). pose proof (round53_le _ Q).
    assert (0 < num). { destruct (Z.eq_dec num 0); [subst; simpl in E; lia|lia]. }
    specialize (Hf ltac:(lia)).
    assert (L : Z.log2 (round53 (num / 63)) < Z.log2 num).
    { apply Z.log2_lt_pow2; [lia|].
      assert (num < 2 ^ Z.succ (Z.log2 num)) by (apply Z.log2_spec; lia).
      assert (num / 63 * 63 <= num) by (pose proof (Z.mul_div_le num 63); lia).
      rewrite Z.pow_succ_r in * by apply Z.log2_nonneg. lia. }
    apply IH; lia.
Qed.

Lemma hex_total num : 0 <= num -> exists r, gen_hex_name num = Some r.
Proof.
  intros H. unfold gen_hex_name. apply hex_loop_total; lia.
Qed.

Lemma removelast_firstn_S {A} (l : list A) k :
  firstn (List.length l - S k) l = removelast (firstn (List.length l - k) l).
Proof.
  destruct (le_lt_dec (List.length l) k) as [L|L].
  - replace (List.length l - k)%nat with 0%nat by lia.
    replace (List.length l - S k)%nat with 0%nat by lia. reflexivity.
  - rewrite removelast_firstn_len, firstn_firstn, firstn_length.
    f_equal. lia.
Qed.

(** Shape of the result while quotients are exactly representable. *)
Lemma hex_loop_digits : forall fuel num s p r,
  0 <= num < 63 * 2 ^ 53 ->
  hex_loop fuel num s p = Some r ->
  exists ds, r = (firstn (List.length p - List.length ds) p ++ map chr ds ++ s)%list
    /\ digits_ok ds /\ val ds = num /\ (1 <= List.length ds)%nat
    /\ (63 ^ (Z.of_nat (List.length ds) - 1) <= num \/ List.length ds = 1%nat).
Proof.
  induction fuel as [|f IH]; intros num s p r H0 E; [discriminate|].
  cbn [hex_loop] in E. rewrite base_63 in E. unfold int_truediv in E.
  rewrite div_exact_step in E by lia.
  assert (Hm : 0 <= num mod 63 < 63) by (apply Z.mod_pos_bound; lia).
  assert (Hd : num = 63 * (num / 63) + num mod 63) by (apply Z.div_mod; lia).
  assert (Hq : 0 <= num / 63 < 2 ^ 53) by lia.
  rewrite round53_small in E by lia.
  destruct (Z.eqb_spec (num / 63) 0) as [Ez|Ez].
  - injection E as <-. exists [num mod 63]. repeat split.
    + cbn [List.length map app]. unfold chr.
      rewrite removelast_firstn_len. f_equal. f_equal. lia.
    + constructor; [lia|constructor].
    + unfold val; simpl. lia.
    + cbn [List.length]. lia.
    + right. reflexivity.
  - apply IH in E; [|lia]. destruct E as (ds & -> & Hok & Hv & Hl & Hlow).
    exists (ds ++ [num mod 63])%list. repeat split.
    + rewrite map_app. cbn [map]. rewrite <- !app_assoc. cbn [app]. f_equal.
      * rewrite app_length. cbn [List.length].
        rewrite Nat.add_1_r, removelast_firstn_S.
        assert (R : forall (q : list ascii) j, firstn (List.length (removelast q) - j) (removelast q)
                  = removelast (firstn (List.length q - j) q)).
        { intros q j. rewrite <- removelast_firstn_S.
          rewrite (removelast_firstn_len q), firstn_firstn, firstn_length. f_equal. lia. }
        apply R.
    + apply Forall_app. split; [assumption|]. constructor; [lia|constructor].
    + rewrite val_app, Hv. lia.
    + rewrite app_length. cbn [List.length]. lia.
    + left. rewrite app_length. cbn [List.length].
      replace (Z.of_nat (List.length ds + 1) - 1) with (Z.of_nat (List.length ds)) by lia.
      destruct Hlow as [Hlow|Hlow].
      * replace (Z.of_nat (List.length ds)) with (Z.succ (Z.of_nat (List.length ds) - 1)) by lia.
        rewrite Z.pow_succ_r by lia. lia.
      * rewrite Hlow. change (63 ^ Z.of_nat 1) with 63. lia.
Qed.

Definition prefix_digits (k : nat) : list Z := firstn (5 - k) [62; 0; 0; 0; 0].

Lemma prefix_chr k :
  firstn (5 - k) (list_ascii_of_string "_0000") = map chr (prefix_digits k).
Proof.
  unfold prefix_digits. do 6 (destruct k as [|k]; [reflexivity|]).
  replace (5 - _)%nat with 0%nat by lia. reflexivity.
Qed.

(** The whole name as a base-63 numeral: its length and value. *)
Lemma name_numeral num r :
  0 <= num < 63 * 2 ^ 53 -> gen_hex_name num = Some r ->
  exists es, r = map chr es /\ digits_ok es
    /\ (num < 63 ^ 4 -> List.length es = 5%nat /\ val es = 62 * 63 ^ 4 + num)
    /\ (63 ^ 4 <= num -> val es = num /\ (5 <= List.length es)%nat
         /\ 63 ^ (Z.of_nat (List.length es) - 1) <= num < 63 ^ Z.of_nat (List.length es)).
Proof.
  intros H E. unfold gen_hex_name in E. apply hex_loop_digits in E; [|lia].
  destruct E as (ds & -> & Hok & Hv & Hl & Hlow).
  change (List.length (list_ascii_of_string "_0000")) with 5%nat.
  rewrite prefix_chr, app_nil_r, <- map_app.
  exists (prefix_digits (List.length ds) ++ ds)%list.
  pose proof (val_bound ds Hok) as Hb. rewrite Hv in Hb.
  split; [reflexivity|]. split.
  { apply Forall_app. split; [|assumption]. unfold prefix_digits.
    apply Forall_forall. intros x Hx.
    assert (In x [62; 0; 0; 0; 0]).
    { rewrite <- (firstn_skipn (5 - List.length ds)). apply in_or_app. now left. }
    simpl in *. lia. }
  split.
  - intros Hs.
    assert (Hk : (List.length ds <= 4)%nat).
    { destruct (le_lt_dec (List.length ds) 4) as [L|L]; [exact L|]. exfalso.
      destruct Hlow as [Hlow|Hlow]; [|lia].
      assert (63 ^ 4 <= 63 ^ (Z.of_nat (List.length ds) - 1))
        by (apply Z.pow_le_mono_r; lia). lia. }
    rewrite val_app_gen, app_length, Hv. unfold prefix_digits.
    destruct (List.length ds) as [|[|[|[|[|k]]]]] eqn:El; try lia.
    all: cbn [Nat.sub firstn List.length]; split; [lia|].
    all: unfold val; cbn [fold_left Z.of_nat Pos.of_succ_nat Pos.succ]; lia.
  - intros Hs.
    assert (Hk : (5 <= List.length ds)%nat).
    { destruct (le_lt_dec 5 (List.length ds)) as [L|L]; [exact L|]. exfalso.
      assert (63 ^ Z.of_nat (List.length ds) <= 63 ^ 4)
        by (apply Z.pow_le_mono_r; lia). lia. }
    unfold prefix_digits. replace (5 - List.length ds)%nat with 0%nat by lia.
    cbn [firstn app]. destruct Hlow as [Hlow|Hlow]; repeat split; lia.
Qed.

Definition chr_table_ok : bool :=
  forallb (fun i => forallb (fun j =>
    implb (Ascii.eqb (nth i char_set "000"%char) (nth j char_set "000"%char)) (Nat.eqb i j))
    (seq 0 63)) (seq 0 63).

Lemma chr_inj a b : 0 <= a < 63 -> 0 <= b < 63 -> chr a = chr b -> a = b.
Proof.
  intros Ha Hb E.
  assert (T : chr_table_ok = true) by (vm_compute; reflexivity).
  unfold chr_table_ok in T. rewrite forallb_forall in T.
  assert (Ia : In (Z.to_nat a) (seq 0 63)) by (apply in_seq; lia).
  assert (Ib : In (Z.to_nat b) (seq 0 63)) by (apply in_seq; lia).
  specialize (T _ Ia). cbv beta in T. rewrite forallb_forall in T. specialize (T _ Ib).
  cbv beta in T. unfold chr in E. rewrite E in T.
  rewrite Ascii.eqb_refl in T. cbn [implb] in T.
  apply Nat.eqb_eq in T. lia.
Qed.

Lemma map_chr_inj : forall ds es,
  digits_ok ds -> digits_ok es -> map chr ds = map chr es -> ds = es.
Proof.
  induction ds as [|d ds IH]; intros [|e es] Hd He E; try discriminate; [reflexivity|].
  cbn [map] in E. injection E as E1 E2. inversion Hd; inversion He; subst.
  f_equal; [apply chr_inj; assumption | apply IH; assumption].
Qed.

Lemma map_length_eq {A B} (f : A -> B) l l' : map f l = map f l' -> List.length l = List.length l'.
Proof. intros E. rewrite <- (map_length f l), E. apply map_length. Qed.

(** Exact description of collisions below 63 * 2^53. *)
Lemma name_collision_iff a b :
  0 <= a -> a < b -> b < 63 * 2 ^ 53 ->
  (gen_hex_name a = gen_hex_name b <-> a < 63 ^ 4 /\ b = a + 62 * 63 ^ 4).
Proof.
  intros Ha Hab Hb.
  destruct (hex_total a Ha) as [ra Ea]. destruct (hex_total b ltac:(lia)) as [rb Eb].
  rewrite Ea, Eb.
  destruct (name_numeral a ra ltac:(lia) Ea) as (da & -> & Oa & Sa & La).
  destruct (name_numeral b rb ltac:(lia) Eb) as (db & -> & Ob & Sb & Lb).
  split.
  - intros E. injection E as E.
    assert (Ed : da = db) by (apply map_chr_inj; assumption). subst db.
    destruct (Z.lt_ge_cases a (63 ^ 4)) as [Ca|Ca]; destruct (Z.lt_ge_cases b (63 ^ 4)) as [Cb|Cb].
    + specialize (Sa Ca). specialize (Sb Cb). lia.
    + specialize (Sa Ca). specialize (Lb Cb). lia.
    + specialize (La Ca). lia.
    + specialize (La Ca). specialize (Lb Cb). lia.
  - intros [Ca ->]. f_equal. f_equal.
    specialize (Sa Ca). destruct Sa as [Sl Sv].
    assert (Cb : 63 ^ 4 <= a + 62 * 63 ^ 4) by lia.
    specialize (Lb Cb). destruct Lb as [Lv [Ll Lr]].
    assert (List.length db = 5%nat).
    { destruct (Nat.eq_dec (List.length db) 5) as [E|E]; [exact E|]. exfalso.
      assert (63 ^ 5 <= 63 ^ (Z.of_nat (List.length db) - 1)) by (apply Z.pow_le_mono_r; lia).
      lia. }
    apply (val_inj 5); try assumption. lia.
Qed.

Lemma name_chars num r c :
  0 <= num < 63 * 2 ^ 53 -> gen_hex_name num = Some r -> In c r -> In c char_set.
Proof.
  intros H E Hc. destruct (name_numeral num r H E) as (es & -> & Ho & _).
  apply in_map_iff in Hc. destruct Hc as (d & <- & Hd).
  unfold digits_ok in Ho. rewrite Forall_forall in Ho. specialize (Ho _ Hd).
  unfold chr. apply nth_In. change (List.length char_set) with 63%nat. lia.
Qed.

Lemma name_length num r :
  0 <= num < 63 * 2 ^ 53 -> gen_hex_name num = Some r -> (5 <= List.length r)%nat.
Proof.
  intros H E. destruct (name_numeral num r H E) as (es & -> & _ & Hs & Hl).
  rewrite map_length. destruct (Z.lt_ge_cases num (63 ^ 4)) as [C|C].
  - specialize (Hs C). lia.
  - specialize (Hl C). lia.
Qed.

From Verif Require Import SpecNames.

Lemma names_unique a b :
  0 <= a < 62 * 63 ^ 4 -> 0 <= b < 62 * 63 ^ 4 ->
  gen_hex_name a = gen_hex_name b -> a = b.
Proof.
  intros Ha Hb E. destruct (Z.lt_trichotomy a b) as [L|[L|L]]; [|exact L|].
  - apply name_collision_iff in E; lia.
  - symmetry in E. apply name_collision_iff in E; lia.
Qed.

Lemma names_wellformed n :
  0 <= n < 62 * 63 ^ 4 ->
  exists r, gen_hex_name n = Some r /\ List.length r = 5%nat
    /\ Forall (fun c => name_char c = true) r.
Proof.
  intros H. destruct (hex_total n ltac:(lia)) as [r E]. exists r. split; [exact E|]. split.
  - destruct (name_numeral n r ltac:(lia) E) as (es & -> & Ho & Hs & Hl).
    rewrite map_length. destruct (Z.lt_ge_cases n (63 ^ 4)) as [C|C].
    + specialize (Hs C). lia.
    + specialize (Hl C). destruct Hl as (_ & L5 & Lr & _).
      destruct (Nat.eq_dec (List.length es) 5) as [D|D]; [exact D|]. exfalso.
      assert (63 ^ 5 <= 63 ^ (Z.of_nat (List.length es) - 1)) by (apply Z.pow_le_mono_r; lia).
      lia.
  - apply Forall_forall. intros c Hc.
    pose proof (name_chars n r c ltac:(lia) E Hc) as Hin.
    assert (T : forallb name_char char_set = true) by (vm_compute; reflexivity).
    rewrite forallb_forall in T. exact (T c Hin).
Qed.

Lemma names_unique_refuted :
  exists a b, 0 <= a /\ 0 <= b /\ a <> b /\ gen_hex_name a = gen_hex_name b.
Proof.
  exists 0, (62 * 63 ^ 4). repeat split; try lia.
Qed.
