(** Repeated operands, and the tuple form of einsum. *)
From Coq Require Import String.
From Coq Require Import Reals Lra Lia Arith List Bool.
From Verif Require Import PyBase RSum NdArray NdEinsum Component JacSpec CompReorder CompEinsum
  SpecEinsum EinsumStrings EinsumCalc EinsumProofs.
Import ListNotations.

(** ---- distinct operands ------------------------------------------------- *)

Theorem einsum_distinct : forall op subs out ext names,
  np_subscripts op = Some (subs, out) ->
  length subs = length names -> NoDup names ->
  NoDup out -> incl out (concat subs) ->
  (forall r, In r subs -> length r <= length (unused_chars op)) ->
  exists c, einsum_comp op names (map (map ext) subs) = Some c /\
    c_ins c = map (map ext) subs /\
    c_out c = (match out with [] => [1] | _ => map ext out end) /\
    correct c (einsum_meaning subs out ext names names).
Proof.
  intros op subs out ext names Hp Hl Hn Hno Ho Hr.
  destruct (einsum_prefix_lemma op subs out ext names [] Hp) as (c & E & Hi & Hc & Hcor);
    rewrite ?app_nil_r in *; auto.
  - intros x [].
  - intros j j' Hj Hj' E. assert (j = j') by (apply (proj1 (NoDup_nth names 0) Hn j j' Hj Hj' E)).
    now subst.
  - exists c. splits; try assumption. rewrite Hi. apply firstn_all2. rewrite map_length. lia.
Qed.

(** ---- repeated operands --------------------------------------------------- *)

Theorem einsum_repeated_last : forall op subs out ext ds rs,
  np_subscripts op = Some (subs, out) ->
  length subs = length (ds ++ rs) -> NoDup ds -> incl rs ds ->
  (forall j j', j < length (ds ++ rs) -> j' < length (ds ++ rs) ->
     nth j (ds ++ rs) 0 = nth j' (ds ++ rs) 0 ->
     map ext (nth j subs []) = map ext (nth j' subs [])) ->
  NoDup out -> incl out (concat subs) ->
  (forall r, In r subs -> length r <= length (unused_chars op)) ->
  exists c, einsum_comp op (ds ++ rs) (map (map ext) subs) = Some c /\
    c_ins c = firstn (length ds) (map (map ext) subs) /\
    c_out c = (match out with [] => [1] | _ => map ext out end) /\
    correct c (einsum_meaning subs out ext ds (ds ++ rs)).
Proof. exact einsum_prefix_lemma. Qed.

Lemma dedup_length_le : forall l, length (dedup l) <= length l.
Proof.
  intros l. apply NoDup_incl_length; [apply dedup_NoDup|]. intros x Hx. now apply dedup_In.
Qed.

Lemma dedup_full : forall l, length (dedup l) = length l -> NoDup l.
Proof.
  induction l as [|x l IH]; intros H; [constructor|]. cbn [dedup length] in H.
  assert (Hf : length (filter (fun y => negb (Nat.eqb y x)) (dedup l)) <= length (dedup l)).
  { clear. induction (dedup l) as [|y l' IH]; cbn; [lia|]. destruct (negb _); cbn; lia. }
  pose proof (dedup_length_le l). constructor; [|apply IH; lia].
  intros Hx. apply (proj2 (dedup_In l x)) in Hx.
  assert (Hlt : length (filter (fun y => negb (Nat.eqb y x)) (dedup l)) < length (dedup l)).
  { revert Hx. clear. induction (dedup l) as [|y l' IH]; intros Hx; [destruct Hx|].
    cbn [filter]. destruct (Nat.eqb_spec y x) as [->|Hne]; cbn [negb].
    - assert (Hf : length (filter (fun y => negb (Nat.eqb y x)) l') <= length l').
      { clear. induction l' as [|z l' IH]; cbn; [lia|]. destruct (negb _); cbn; lia. }
      cbn. lia.
    - destruct Hx as [Hx|Hx]; [congruence|]. specialize (IH Hx). cbn. lia. }
  lia.
Qed.

Lemma late_name : forall rest P, ~ NoDup P -> (exists b, In b rest /\ ~ In b P) ->
  exists b, In b (P ++ rest) /\ length (dedup (P ++ rest)) <= find_pos (P ++ rest) b.
Proof.
  intros rest P HP. induction rest as [|x rest IH] using rev_ind; intros (b & Hb & Hbn); [destruct Hb|].
  rewrite app_assoc.
  destruct (in_dec Nat.eq_dec x (P ++ rest)) as [Hx|Hx].
  - assert (Ed : dedup ((P ++ rest) ++ [x]) = dedup (P ++ rest)).
    { rewrite dedup_app. cbn [dedup filter]. assert (E : mem x (P ++ rest) = true) by now apply mem_In.
      rewrite E. cbn. apply app_nil_r. }
    rewrite Ed. destruct IH as (b' & Hb' & Hle).
    + apply in_app_or in Hb. destruct Hb as [Hb|[->|[]]]; [now exists b|].
      apply in_app_or in Hx. destruct Hx as [Hx|Hx]; [tauto|]. now exists b.
    + exists b'. split; [apply in_or_app; now left|]. now rewrite find_pos_app_l.
  - exists x. split; [apply in_or_app; right; now left|].
    rewrite find_pos_app_r by assumption. cbn [find_pos]. rewrite Nat.eqb_refl, Nat.add_0_r.
    assert (Ed : dedup ((P ++ rest) ++ [x]) = dedup (P ++ rest) ++ [x]).
    { rewrite dedup_app. cbn [dedup filter].
      assert (E : mem x (P ++ rest) = false) by now apply mem_not_In. now rewrite E. }
    rewrite Ed, app_length. cbn [length].
    assert (Hne : length (dedup (P ++ rest)) <> length (P ++ rest)).
    { intros E. apply dedup_full in E. apply HP.
      revert E. clear. induction P as [|y P IHP]; intros E; [constructor|].
      cbn in E. inversion E; subst. constructor; [|auto].
      intros Hy. apply H1. apply in_or_app. now left. }
    pose proof (dedup_length_le (P ++ rest)). lia.
Qed.

(** A distinct operand after a repeated one makes compute_partials raise. *)
Theorem einsum_repeated_raises : forall op l1 a l2 b l3 shapes c ins p,
  In a l1 -> ~ In b (l1 ++ a :: l2) ->
  einsum_comp op (l1 ++ a :: l2 ++ b :: l3) shapes = Some c ->
  c_partials c ins p = None.
Proof.
  intros op l1 a l2 b l3 shapes c ins p Ha Hb E.
  destruct (late_name (b :: l3) (l1 ++ a :: l2)) as (x & Hx & Hle).
  - intros Hn. apply NoDup_remove_2 in Hn. apply Hn. apply in_or_app. now left.
  - exists b. split; [now left|assumption].
  - assert (En : (l1 ++ a :: l2) ++ b :: l3 = l1 ++ a :: l2 ++ b :: l3)
      by (rewrite <- app_assoc; reflexivity).
    rewrite En in *. set (names := l1 ++ a :: l2 ++ b :: l3) in *.
    unfold einsum_comp in E. destruct (compute_einsum_shape _ _) as [os|]; [|discriminate].
    inversion E; subst c. cbn [c_partials]. clear E.
    set (q := find_pos (distinct names) x).
    assert (Hxd : In x (distinct names)) by now apply dedup_In.
    rewrite map_opt_none with (x := q); [reflexivity| |].
    + apply in_seq. split; [lia|]. apply find_pos_lt. exact Hxd.
    + unfold einsum_partial. replace (nth q (distinct names) 0) with x
        by (symmetry; now apply nth_find_pos).
      assert (En' : nth_error (map (fun m => identity_tensor (shape_of_name names shapes m)) (distinct names))
                     (find_pos names x) = None).
      { apply nth_error_None. rewrite map_length. exact Hle. }
      now rewrite En'.
Qed.

(** einsum(x, x, y, subscripts='i,i,i->') as built by the code *)
Definition repeated_op := codes "i,i,i->"%string.
Theorem einsum_repeated_wrong : forall n, exists c,
  einsum_comp repeated_op [0; 0; 1] [[n]; [n]; [n]] = Some c /\
  forall meaning, ~ correct c meaning.
Proof.
  intros n. destruct (einsum_comp repeated_op [0; 0; 1] [[n]; [n]; [n]]) as [c|] eqn:E; [|discriminate].
  exists c. split; [reflexivity|]. intros meaning (F & _ & Hd).
  assert (Hl : 0 < length (c_ins c)).
  { pose proof (f_equal (option_map (fun c => length (c_ins c))) E) as El. cbn in El.
    inversion El as [El']. lia. }
  destruct (Hd (fun _ _ => 0%R) 0 I Hl) as (j & Ej & _).
  rewrite (einsum_repeated_raises repeated_op [0] 0 [] 1 [] [[n]; [n]; [n]] c
      (inputs_of (c_ins c) (fun _ _ => 0%R)) 0) in Ej.
  - discriminate.
  - now left.
  - cbn. lia.
  - exact E.
Qed.

(** ---- the tuple form ------------------------------------------------------ *)

(** the letter of an axis *)
Definition letter (axes : list nat) (a : nat) : nat := 97 + find_pos axes a.

Lemma letter_of_in : forall axes a, In a axes -> length axes <= 26 ->
  letter_of axes a = Some (letter axes a).
Proof.
  intros axes a Ha Hl. unfold letter_of. pose proof (find_pos_lt axes a Ha) as Hlt.
  apply mem_In in Ha. rewrite Ha. unfold alphabet.
  rewrite (nth_error_nth' _ 0) by (rewrite seq_length; lia).
  rewrite seq_nth by lia. reflexivity.
Qed.

Lemma letter_inj : forall axes a b, In a axes -> In b axes -> letter axes a = letter axes b -> a = b.
Proof.
  intros axes a b Ha Hb H. unfold letter in H.
  rewrite <- (nth_find_pos axes a 0 Ha), <- (nth_find_pos axes b 0 Hb). f_equal. lia.
Qed.

Lemma letter_ext : forall axes more a, In a axes -> letter (axes ++ more) a = letter axes a.
Proof. intros. unfold letter. now rewrite find_pos_app_l. Qed.

Lemma letter_letters : forall axes t, length axes <= 26 -> incl t axes ->
  letters (map (letter axes) t).
Proof.
  intros axes t Hl Ht. unfold letters. apply forallb_forall. intros c Hc.
  apply in_map_iff in Hc. destruct Hc as (a & <- & Ha). apply Ht in Ha.
  pose proof (find_pos_lt axes a Ha). unfold letter, isalpha.
  apply orb_true_iff. right. rewrite andb_true_iff, !Nat.leb_le. lia.
Qed.

Lemma dedup_app_in : forall axes a, NoDup axes ->
  dedup (axes ++ [a]) = if mem a axes then axes else axes ++ [a].
Proof.
  intros axes a Hn. rewrite dedup_app, (dedup_id axes Hn). cbn [dedup filter].
  destruct (mem a axes); cbn; [apply app_nil_r|reflexivity].
Qed.

Lemma dedup_dedup_app : forall a b, dedup (dedup a ++ b) = dedup (a ++ b).
Proof.
  intros a b. rewrite !dedup_app. rewrite (dedup_id (dedup a)) by apply dedup_NoDup.
  f_equal. apply filter_ext. intros x. f_equal.
  destruct (mem x a) eqn:E.
  - apply mem_In. apply dedup_In. now apply mem_In.
  - apply mem_not_In. rewrite dedup_In. now apply mem_not_In.
Qed.

Lemma name_axes_ok : forall t axes, NoDup axes -> length (dedup (axes ++ t)) <= 26 ->
  name_axes axes t = Some (dedup (axes ++ t), map (letter (dedup (axes ++ t))) t).
Proof.
  induction t as [|a t IH]; intros axes Hn Hl.
  - rewrite app_nil_r in *. rewrite dedup_id by assumption. reflexivity.
  - cbn [name_axes]. set (axes' := if mem a axes then axes else axes ++ [a]).
    assert (E' : axes' = dedup (axes ++ [a])) by (unfold axes'; now rewrite dedup_app_in).
    assert (Hn' : NoDup axes') by (rewrite E'; apply dedup_NoDup).
    assert (Ed : dedup (axes' ++ t) = dedup (axes ++ a :: t)).
    { rewrite E', dedup_dedup_app, <- app_assoc. reflexivity. }
    assert (Ha : In a axes').
    { rewrite E'. apply dedup_In. apply in_or_app. right. now left. }
    assert (Hpre : exists more, dedup (axes' ++ t) = axes' ++ more).
    { rewrite dedup_app, (dedup_id axes' Hn'). eauto. }
    destruct Hpre as [more Hpre].
    rewrite letter_of_in by
      (assumption || (rewrite <- Ed, Hpre, app_length in Hl; lia)).
    rewrite IH by (assumption || now rewrite Ed).
    rewrite Ed. cbn [map]. do 3 f_equal.
    rewrite <- Ed, Hpre. symmetry. now apply letter_ext.
Qed.

Lemma name_tuples_ok : forall ts axes, NoDup axes -> length (dedup (axes ++ concat ts)) <= 26 ->
  name_tuples axes ts = Some (dedup (axes ++ concat ts),
                              map (map (letter (dedup (axes ++ concat ts)))) ts).
Proof.
  induction ts as [|t ts IH]; intros axes Hn Hl.
  - cbn [concat] in *. rewrite app_nil_r in *. rewrite dedup_id by assumption. reflexivity.
  - cbn [name_tuples concat] in *.
    set (axes' := dedup (axes ++ t)).
    assert (Hn' : NoDup axes') by apply dedup_NoDup.
    assert (Ed : dedup (axes' ++ concat ts) = dedup (axes ++ t ++ concat ts)).
    { unfold axes'. rewrite dedup_dedup_app, <- app_assoc. reflexivity. }
    assert (Hpre : exists more, dedup (axes' ++ concat ts) = axes' ++ more).
    { rewrite dedup_app, (dedup_id axes' Hn'). eauto. }
    destruct Hpre as [more Hpre].
    assert (Hl' : length axes' <= 26) by (rewrite <- Ed, Hpre, app_length in Hl; lia).
    rewrite name_axes_ok by assumption. fold axes'.
    rewrite IH by (assumption || now rewrite Ed). rewrite Ed. cbn [map].
    do 2 f_equal. f_equal. apply map_ext_in. intros a Ha.
    rewrite <- Ed, Hpre. symmetry. apply letter_ext. unfold axes'. apply dedup_In.
    apply in_or_app. now right.
Qed.

(** The result of the translation. *)
Lemma new_subscripts_ok : forall ins out (scalar : bool),
  ins <> [] -> length (dedup (concat ins)) <= 26 -> incl out (concat ins) ->
  (scalar = true -> out = []) ->
  let g := letter (dedup (concat ins)) in
  let tuples := if scalar then ins else ins ++ [out] in
  new_subscripts tuples scalar =
    Some (map (map g) ins ++ [map g out], to_string (map (map g) ins ++ [map g out])).
Proof.
  intros ins out scalar Hne Hl Ho Hs g tuples. unfold new_subscripts.
  destruct scalar; unfold tuples; clear tuples.
  - rewrite Hs by reflexivity. rewrite firstn_all. rewrite name_tuples_ok by (assumption || apply NoDup_nil).
    cbn [app]. assert (E : Nat.eqb (length ins) (length ins + 1) = false) by (apply Nat.eqb_neq; lia).
    rewrite E. reflexivity.
  - rewrite app_length. cbn [length]. replace (length ins + 1 - 1) with (length ins) by lia.
    rewrite firstn_app, Nat.sub_diag, firstn_all, firstn_O, app_nil_r.
    rewrite name_tuples_ok by (assumption || apply NoDup_nil). cbn [app].
    rewrite Nat.eqb_refl, last_last.
    rewrite map_opt_some with (g := letter (dedup (concat ins))).
    + reflexivity.
    + intros a Ha. apply letter_of_in; [|assumption]. apply dedup_In. auto.
Qed.

Theorem tuples_to_string : forall ins out (scalar : bool),
  ins <> [] -> length (dedup (concat ins)) <= 26 -> incl out (concat ins) ->
  (scalar = true -> out = []) ->
  exists g aslist str,
    new_subscripts (if scalar then ins else ins ++ [out]) scalar = Some (aslist, str) /\
    (forall a b, In a (concat ins) -> In b (concat ins) -> g a = g b -> a = b) /\
    np_subscripts str = Some (map (map g) ins, map g out) /\
    subscripts_tolist str = aslist.
Proof.
  intros ins out scalar Hne Hl Ho Hs.
  set (g := letter (dedup (concat ins))).
  exists g, (map (map g) ins ++ [map g out]), (to_string (map (map g) ins ++ [map g out])).
  assert (Hp : np_subscripts (to_string (map (map g) ins ++ [map g out]))
               = Some (map (map g) ins, map g out)).
  { apply parse_to_string.
    - intros E. apply map_eq_nil in E. congruence.
    - intros r Hr. apply in_map_iff in Hr. destruct Hr as (t & <- & Ht).
      apply letter_letters; [assumption|]. intros a Ha. apply dedup_In. apply in_concat. eauto.
    - apply letter_letters; [assumption|]. intros a Ha. apply dedup_In. auto. }
  splits.
  - now apply new_subscripts_ok.
  - intros a b Ha Hb. apply letter_inj; now apply dedup_In.
  - exact Hp.
  - now apply tolist_is_parse.
Qed.

(** Renaming the letters does not change the Einstein sum. *)
Local Open Scope R_scope.
Lemma sum_letters_rename : forall (g : nat -> nat) dom ext ext' (f f' : assignment -> R) ls,
  (forall a b, In a dom -> In b dom -> g a = g b -> a = b) ->
  (forall a, In a dom -> ext' (g a) = ext a) ->
  incl ls dom ->
  (forall e e', (forall a, In a dom -> e' (g a) = e a) -> f e = f' e') ->
  forall e e', (forall a, In a dom -> e' (g a) = e a) ->
  sum_letters ls ext e f = sum_letters (map g ls) ext' e' f'.
Proof.
  intros g dom ext ext' f f' ls Hg He Hi Hf. induction ls as [|l ls IH]; intros e e' Hee.
  - cbn. now apply Hf.
  - cbn [map sum_letters]. rewrite He by (apply Hi; now left). apply rsum_ext. intros i Hlt.
    apply IH; [intros x Hx; apply Hi; now right|].
    intros a Ha. unfold assign.
    destruct (Nat.eqb_spec a l) as [->|Hne]; [now rewrite Nat.eqb_refl|].
    destruct (Nat.eqb_spec (g a) (g l)) as [E|]; [|now apply Hee].
    exfalso. apply Hne. apply Hg; [assumption|apply Hi; now left|assumption].
Qed.

Lemma product_rename : forall (g : nat -> nat) subs xs e e',
  (forall a, In a (concat subs) -> e' (g a) = e a) ->
  product subs xs e = product (map (map g) subs) xs e'.
Proof.
  intros g. induction subs as [|s subs IH]; intros [|x xs] e e' H; try reflexivity.
  cbn [map product]. rewrite map_map. f_equal.
  - f_equal. apply map_ext_in. intros a Ha. symmetry. apply H. cbn. apply in_or_app. now left.
  - apply IH. intros a Ha. apply H. cbn. apply in_or_app. now right.
Qed.

Lemma einstein_rename : forall (g h : nat -> nat) subs out ext xs y,
  (forall a, In a (concat subs) -> h (g a) = a) -> incl out (concat subs) ->
  einstein_sum (map (map g) subs) (map g out) (fun l => ext (h l)) xs y ->
  einstein_sum subs out ext xs y.
Proof.
  intros g h subs out ext xs y Hh Ho (Hs & Hy & Hv).
  assert (Hmap : forall ls, incl ls (concat subs) -> map (fun l => ext (h l)) (map g ls) = map ext ls).
  { intros ls Hls. rewrite map_map. apply map_ext_in. intros a Ha. now rewrite Hh by auto. }
  assert (Hinj : forall a b, In a (concat subs) -> In b (concat subs) -> g a = g b -> a = b).
  { intros a b Ha Hb E. rewrite <- (Hh a Ha), <- (Hh b Hb). now rewrite E. }
  unfold einstein_sum. splits.
  - rewrite Hs, map_map. apply map_ext_in. intros t Ht. apply Hmap. intros a Ha. apply in_concat. eauto.
  - rewrite Hy. destruct out as [|o out]; [reflexivity|]. now apply Hmap.
  - intros e ls He Hn Hls.
    assert (Hlsin : incl ls (concat subs)) by (intros l Hl; now apply Hls in Hl).
    specialize (Hv (fun l => e (h l)) (map g ls)).
    transitivity (get y match map g out with [] => [0%nat] | _ :: _ => map (fun l => e (h l)) (map g out) end).
    { destruct out as [|o out]; [reflexivity|]. f_equal.
      change (map g (o :: out)) with (g o :: map g out). cbv iota.
      change (g o :: map g out) with (map g (o :: out)). rewrite map_map.
      apply map_ext_in. intros a Ha. now rewrite Hh by auto. }
    rewrite Hv.
    + symmetry. apply sum_letters_rename with (dom := concat subs).
      * exact Hinj.
      * intros a Ha. now rewrite Hh.
      * exact Hlsin.
      * intros e1 e2 H12. now apply product_rename.
      * intros a Ha. now rewrite Hh.
    + intros l Hl. apply in_map_iff in Hl. destruct Hl as (a & <- & Ha).
      rewrite Hh by auto. auto.
    + clear Hls Hv. induction Hn as [|l ls Hl Hn IH]; cbn; constructor.
      * intros Hx. apply in_map_iff in Hx. destruct Hx as (b & Eb & Hb).
        assert (b = l) by (apply Hinj; [apply Hlsin; now right|apply Hlsin; now left|assumption]).
        congruence.
      * apply IH. intros x Hx. apply Hlsin. now right.
    + intros l. rewrite in_map_iff. rewrite <- concat_map. split.
      * intros (a & <- & Ha). apply Hls in Ha. destruct Ha as [H1 H2]. split.
        -- now apply in_map.
        -- intros Hx. apply in_map_iff in Hx. destruct Hx as (b & Eb & Hb). apply H2.
           assert (b = a) by (apply Hinj; auto). now subst.
      * intros [H1 H2]. apply in_map_iff in H1. destruct H1 as (a & <- & Ha).
        exists a. split; [reflexivity|]. apply Hls. split; [assumption|].
        intros Hx. apply H2. now apply in_map.
Qed.

Local Open Scope nat_scope.

Lemma unused_letters : forall ins out,
  length (dedup (concat ins)) <= 26 -> incl out (concat ins) ->
  let g := letter (dedup (concat ins)) in
  ins <> [] ->
  26 - length (dedup (concat ins)) <=
    length (unused_chars (to_string (map (map g) ins ++ [map g out]))).
Proof.
  intros ins out Hl Ho g Hne. set (axes := dedup (concat ins)) in *.
  set (str := to_string _).
  set (used := map (fun k => 97 + k) (seq 0 (length axes))).
  set (rest := map (fun k => 97 + k) (seq (length axes) (26 - length axes))).
  transitivity (length rest); [unfold rest; rewrite map_length, seq_length; lia|].
  apply NoDup_incl_length.
  - unfold rest. apply FinFun.Injective_map_NoDup; [intros a b; lia|apply seq_NoDup].
  - intros c Hc. unfold rest in Hc. apply in_map_iff in Hc. destruct Hc as (k & <- & Hk).
    apply in_seq in Hk. rewrite unused_chars_eq. apply filter_In. split.
    + unfold alphabet. apply in_seq. lia.
    + apply negb_true_iff, mem_not_In. intros Hin. unfold str, to_string in Hin.
      rewrite removelast_last, last_last, removelast_commas in Hin.
      assert (Hlet : forall a, In a (concat ins) -> letter axes a < 97 + length axes).
      { intros a Ha. unfold letter. apply (proj2 (dedup_In _ _)) in Ha.
        pose proof (find_pos_lt axes a Ha). lia. }
      assert (Hjoin : forall l c, In c (join l) -> c = c_comma \/ In c (concat l)).
      { clear. induction l as [|r l IH]; intros c H; [destruct H|]. destruct l as [|r' l].
        - right. cbn. rewrite app_nil_r. exact H.
        - change (join (r :: r' :: l)) with (r ++ c_comma :: join (r' :: l)) in H.
          apply in_app_or in H. destruct H as [H|[H|H]].
          + right. cbn. apply in_or_app. now left.
          + left. congruence.
          + destruct (IH c H) as [|H']; [now left|]. right. cbn [concat]. apply in_or_app. now right. }
      apply in_app_or in Hin. destruct Hin as [Hin|[Hin|[Hin|Hin]]].
      * apply Hjoin in Hin. destruct Hin as [Hin|Hin].
        -- unfold c_comma in Hin. lia.
        -- rewrite <- concat_map in Hin. apply in_map_iff in Hin. destruct Hin as (a & Ea & Ha).
           pose proof (Hlet a Ha). fold g in H. rewrite Ea in H. lia.
      * unfold c_minus in Hin. lia.
      * unfold c_gt in Hin. lia.
      * apply in_map_iff in Hin. destruct Hin as (a & Ea & Ha).
        pose proof (Hlet a (Ho a Ha)). fold g in H. rewrite Ea in H. lia.
Qed.

(** einsum_new_api computes the Einstein sum of its tuples. *)
Theorem einsum_new_correct : forall ins out ext names (scalar : bool),
  ins <> [] -> length ins = length names -> NoDup names ->
  NoDup out -> incl out (concat ins) -> (scalar = true -> out = []) ->
  (forall t, In t ins -> length t + length (dedup (concat ins)) <= 26) ->
  exists c, einsum_new_comp (if scalar then ins else ins ++ [out]) names (map (map ext) ins) = Some c /\
    c_ins c = map (map ext) ins /\
    c_out c = (match out with [] => [1] | _ => map ext out end) /\
    correct c (einsum_meaning ins out ext names names).
Proof.
  intros ins out ext names scalar Hne Hln Hn Hno Ho Hs Hr.
  set (axes := dedup (concat ins)) in *. set (g := letter axes).
  assert (Hl : length axes <= 26).
  { destruct ins as [|t ins']; [congruence|]. specialize (Hr t ltac:(now left)). lia. }
  set (h := fun l => nth (l - 97) axes 0).
  assert (Hh : forall a, In a (concat ins) -> h (g a) = a).
  { intros a Ha. unfold h, g, letter. replace (97 + find_pos axes a - 97) with (find_pos axes a) by lia.
    apply nth_find_pos. now apply dedup_In. }
  unfold einsum_new_comp.
  assert (Eb : Nat.eqb (length (map (map ext) ins)) (length (if scalar then ins else ins ++ [out])) = scalar).
  { rewrite map_length. destruct scalar; [apply Nat.eqb_refl|]. apply Nat.eqb_neq.
    rewrite app_length. cbn. lia. }
  rewrite Eb. rewrite (new_subscripts_ok ins out scalar Hne Hl Ho Hs). fold axes. fold g.
  assert (Hmap : forall ls, incl ls (concat ins) -> map (fun l => ext (h l)) (map g ls) = map ext ls).
  { intros ls Hls. rewrite map_map. apply map_ext_in. intros a Ha. now rewrite Hh by auto. }
  assert (Eshape : map (map ext) ins = map (map (fun l => ext (h l))) (map (map g) ins)).
  { rewrite map_map. apply map_ext_in. intros t Ht. symmetry. apply Hmap.
    intros a Ha. apply in_concat. eauto. }
  destruct (einsum_distinct (to_string (map (map g) ins ++ [map g out]))
              (map (map g) ins) (map g out) (fun l => ext (h l)) names)
    as (c & E & Hi & Hc & Hcor).
  - apply parse_to_string.
    + intros E. apply map_eq_nil in E. congruence.
    + intros r Hr'. apply in_map_iff in Hr'. destruct Hr' as (t & <- & Ht).
      apply letter_letters; [assumption|]. intros a Ha. apply dedup_In. apply in_concat. eauto.
    + apply letter_letters; [assumption|]. intros a Ha. apply dedup_In. auto.
  - now rewrite map_length.
  - assumption.
  - clear - Hno Ho Hh. induction Hno as [|o out Hx Hno IH]; cbn; constructor.
    + intros Hi. apply in_map_iff in Hi. destruct Hi as (b & Eb & Hb). apply Hx.
      assert (b = o); [|now subst].
      rewrite <- (Hh b), <- (Hh o) by (apply Ho; cbn; auto). now rewrite Eb.
    + apply IH. intros x Hi. apply Ho. now right.
  - intros l Hi. rewrite <- concat_map. apply in_map_iff in Hi. destruct Hi as (a & <- & Ha).
    apply in_map. auto.
  - intros r Hi. apply in_map_iff in Hi. destruct Hi as (t & <- & Ht). rewrite map_length.
    pose proof (unused_letters ins out Hl Ho Hne) as Hu. fold axes in Hu. fold g in Hu.
    specialize (Hr t Ht). lia.
  - exists c. rewrite <- Eshape in *. splits; try assumption.
    + rewrite Hc. destruct out as [|o out]; [reflexivity|]. now apply Hmap.
    + destruct Hcor as (F & H1 & H2). exists F. split; [|exact H2].
      intros v. destruct (H1 v) as (Hc1 & xs & Hx1 & Hx2). split; [exact Hc1|].
      exists xs. split; [assumption|]. eapply einstein_rename; eauto.
Qed.

(** Concrete cases. *)
Example einsum_instance :
  np_subscripts (codes "ij,jk->ik"%string) = Some ([codes "ij"%string; codes "jk"%string], codes "ik"%string) /\
  NoDup [0; 1] /\ NoDup (codes "ik"%string) /\
  incl (codes "ik"%string) (concat [codes "ij"%string; codes "jk"%string]) /\
  (forall r, In r [codes "ij"%string; codes "jk"%string] -> length r <= length (unused_chars (codes "ij,jk->ik"%string))) /\
  einsum_okb [(codes "ij"%string, Nd [2; 3] (fun _ => 0%R)); (codes "jk"%string, Nd [3; 4] (fun _ => 0%R))] (codes "ik"%string) = true.
Proof.
  splits; try reflexivity.
  - repeat constructor; cbn; intuition discriminate.
  - repeat constructor; cbn; intuition discriminate.
  - intros x Hx. cbn in *. tauto.
  - intros r [<-|[<-|[]]]; vm_compute; lia.
Qed.
Example tuples_instance :
  new_subscripts [[7; 5]; [5; 9]; [7; 9]] false =
  Some ([codes "ab"%string; codes "bc"%string; codes "ac"%string], codes "ab,bc->ac"%string).
Proof. reflexivity. Qed.
