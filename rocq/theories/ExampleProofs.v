(** Proofs for the names of example scripts. *)
From Coq Require Import Ascii String.
From Coq Require Import List Arith Lia Bool.
From Verif Require Import PyBase ExampleNames SpecExamples.
Import ListNotations.
Open Scope nat_scope.

Ltac every_char c := destruct c as [[|] [|] [|] [|] [|] [|] [|] [|]]; vm_compute.

Lemma member_spec : forall c l, existsb (Ascii.eqb c) l = true <-> In c l.
Proof.
  intros c l. rewrite existsb_exists. split.
  - intros [x [Hx E]]. apply Ascii.eqb_eq in E. now subst.
  - intros H. exists c. split; auto. apply Ascii.eqb_refl.
Qed.
Lemma upper_spec : forall c, is_upper c = true <-> In c capitals.
Proof.
  intros c. rewrite <- member_spec.
  assert (E : is_upper c = existsb (Ascii.eqb c) capitals) by (every_char c; reflexivity).
  now rewrite E.
Qed.
Lemma lower_spec : forall c, is_lower c = true <-> In c smalls.
Proof.
  intros c. rewrite <- member_spec.
  assert (E : is_lower c = existsb (Ascii.eqb c) smalls) by (every_char c; reflexivity).
  now rewrite E.
Qed.
Lemma digit_spec : forall c, is_digit c = true <-> In c digits.
Proof.
  intros c. rewrite <- member_spec.
  assert (E : is_digit c = existsb (Ascii.eqb c) digits) by (every_char c; reflexivity).
  now rewrite E.
Qed.
Lemma small_spec : forall c, lower1 c = small c.
Proof. intros c. every_char c; reflexivity. Qed.

(** Facts about single characters. *)
Lemma small_idem : forall c, small (small c) = small c.
Proof. intros c. every_char c; reflexivity. Qed.
Lemma small_score : forall c, Ascii.eqb (small c) "_" = Ascii.eqb c "_".
Proof. intros c. every_char c; reflexivity. Qed.
Lemma small_lower : forall c, is_lower c = true -> small c = c.
Proof. intros c. every_char c; congruence. Qed.
Lemma small_digit : forall c, is_digit c = true -> small c = c.
Proof. intros c. every_char c; congruence. Qed.
Lemma small_upper : forall c, is_upper c = true -> is_lower (small c) = true.
Proof. intros c. every_char c; congruence. Qed.
Lemma upper_not_lower : forall c, is_upper c = true -> is_lower c = false.
Proof. intros c. every_char c; congruence. Qed.
Lemma upper_not_digit : forall c, is_upper c = true -> is_digit c = false.
Proof. intros c. every_char c; congruence. Qed.
Lemma lower_not_upper : forall c, is_lower c = true -> is_upper c = false.
Proof. intros c. every_char c; congruence. Qed.
Lemma digit_not_upper : forall c, is_digit c = true -> is_upper c = false.
Proof. intros c. every_char c; congruence. Qed.
Lemma upper_not_newline : forall c, is_upper c = true -> Ascii.eqb c newline = false.
Proof. intros c. every_char c; congruence. Qed.
Lemma lower_not_newline : forall c, is_lower c = true -> Ascii.eqb c newline = false.
Proof. intros c. every_char c; congruence. Qed.
Lemma digit_not_newline : forall c, is_digit c = true -> Ascii.eqb c newline = false.
Proof. intros c. every_char c; congruence. Qed.
Lemma lower_not_score : forall c, is_lower c = true -> Ascii.eqb c "_" = false.
Proof. intros c. every_char c; congruence. Qed.
Lemma digit_not_score : forall c, is_digit c = true -> Ascii.eqb c "_" = false.
Proof. intros c. every_char c; congruence. Qed.
Lemma small_upper_inj : forall c d, is_upper c = true -> is_upper d = true ->
  small c = small d -> c = d.
Proof.
  intros c d Hc Hd E.
  assert (R : forall x, is_upper x = true -> x = ascii_of_nat (nat_of_ascii (small x) - 32)).
  { intros x. every_char x; congruence. }
  rewrite (R c Hc), (R d Hd), E. reflexivity.
Qed.

(** ** The letters are kept. *)
Definition unscored (s : text) := filter (fun c => negb (Ascii.eqb c "_")) s.

Lemma unscored_cons : forall c s, unscored (c :: s) = unscored [c] ++ unscored s.
Proof. intros. unfold unscored. cbn [filter]. destruct (negb (Ascii.eqb c "_")); reflexivity. Qed.

Lemma sub_word_stay : forall b c t, b = true -> is_lower c = true ->
  sub_word b (c :: t) = c :: sub_word true t.
Proof. intros b c t -> H. cbn [sub_word]. now rewrite H. Qed.
Lemma sub_word_match : forall b c u l t, b && is_lower c = false ->
  Ascii.eqb c newline = false -> is_upper u = true -> is_lower l = true ->
  sub_word b (c :: u :: l :: t) = c :: "_"%char :: u :: sub_word true (l :: t).
Proof.
  intros b c u l t H1 H2 H3 H4.
  change (sub_word b (c :: u :: l :: t)) with
    (if b && is_lower c then c :: sub_word true (u :: l :: t)
     else if negb (Ascii.eqb c newline) && is_upper u && is_lower l
          then c :: "_"%char :: u :: sub_word true (l :: t)
          else c :: sub_word false (u :: l :: t)).
  now rewrite H1, H2, H3, H4.
Qed.
Lemma sub_word_step : forall b c u t, b && is_lower c = false -> is_upper u = false ->
  sub_word b (c :: u :: t) = c :: sub_word false (u :: t).
Proof.
  intros b c u t H1 H2. destruct t as [|l t].
  - change (sub_word b [c; u]) with
      (if b && is_lower c then c :: sub_word true [u] else c :: sub_word false [u]).
    now rewrite H1.
  - change (sub_word b (c :: u :: l :: t)) with
      (if b && is_lower c then c :: sub_word true (u :: l :: t)
       else if negb (Ascii.eqb c newline) && is_upper u && is_lower l
            then c :: "_"%char :: u :: sub_word true (l :: t)
            else c :: sub_word false (u :: l :: t)).
    now rewrite H1, H2, andb_false_r.
Qed.
Lemma sub_word_skip : forall b c u l t, b && is_lower c = false -> is_lower l = false ->
  sub_word b (c :: u :: l :: t) = c :: sub_word false (u :: l :: t).
Proof.
  intros b c u l t H1 H2.
  change (sub_word b (c :: u :: l :: t)) with
    (if b && is_lower c then c :: sub_word true (u :: l :: t)
     else if negb (Ascii.eqb c newline) && is_upper u && is_lower l
          then c :: "_"%char :: u :: sub_word true (l :: t)
          else c :: sub_word false (u :: l :: t)).
  now rewrite H1, H2, andb_false_r.
Qed.
Lemma sub_word_cases : forall b c t,
  (exists b', sub_word b (c :: t) = c :: sub_word b' t)
  \/ exists u l t', t = u :: l :: t'
       /\ sub_word b (c :: t) = c :: "_"%char :: u :: sub_word true (l :: t').
Proof.
  intros b c t. destruct t as [|u [|l t]].
  - left. exists false. cbn. destruct (b && is_lower c); reflexivity.
  - left. destruct (b && is_lower c) eqn:E; [exists true | exists false];
      cbn [sub_word]; rewrite E; reflexivity.
  - change (sub_word b (c :: u :: l :: t)) with
      (if b && is_lower c then c :: sub_word true (u :: l :: t)
       else if negb (Ascii.eqb c newline) && is_upper u && is_lower l
            then c :: "_"%char :: u :: sub_word true (l :: t)
            else c :: sub_word false (u :: l :: t)).
    destruct (b && is_lower c); [left; eauto|].
    destruct (negb (Ascii.eqb c newline) && is_upper u && is_lower l); [|left; eauto].
    right. exists u, l, t. auto.
Qed.

Lemma sub_word_unscored : forall n s b, List.length s <= n ->
  unscored (sub_word b s) = unscored s.
Proof.
  induction n as [|n IH]; intros s b L.
  - destruct s; [reflexivity|simpl in L; lia].
  - destruct s as [|c t]; [reflexivity|]. simpl in L.
    destruct (sub_word_cases b c t) as [[b' E]|(u & l & t' & E1 & E2)].
    + rewrite E, unscored_cons, (unscored_cons c t). now rewrite IH by lia.
    + subst t. rewrite E2. simpl in L.
      rewrite unscored_cons, (unscored_cons c (u :: _)). f_equal.
      rewrite unscored_cons. change (unscored ["_"%char]) with (@nil ascii). cbn [app].
      rewrite unscored_cons, (unscored_cons u (l :: _)). f_equal.
      rewrite IH by (simpl; lia). reflexivity.
Qed.

Lemma sub_hump_cons : forall c u t, sub_hump (c :: u :: t) =
  if (is_lower c || is_digit c) && is_upper u then c :: "_"%char :: u :: sub_hump t
  else c :: sub_hump (u :: t).
Proof. reflexivity. Qed.

Lemma sub_hump_unscored : forall n s, List.length s <= n ->
  unscored (sub_hump s) = unscored s.
Proof.
  induction n as [|n IH]; intros s L.
  - destruct s; [reflexivity|simpl in L; lia].
  - destruct s as [|c [|u t]]; [reflexivity|reflexivity|]. simpl in L.
    rewrite sub_hump_cons. destruct ((is_lower c || is_digit c) && is_upper u).
    + rewrite unscored_cons, (unscored_cons c (u :: _)). f_equal.
      rewrite unscored_cons. change (unscored ["_"%char]) with (@nil ascii). cbn [app].
      rewrite unscored_cons, (unscored_cons u t). now rewrite IH by lia.
    + rewrite unscored_cons, (unscored_cons c (u :: _)). now rewrite IH by (simpl; lia).
Qed.

Lemma lower_letters : forall s, letters (lower s) = letters s.
Proof.
  induction s as [|c s IH]; [reflexivity|]. unfold letters in *. cbn [lower map filter].
  rewrite small_spec, small_score. destruct (Ascii.eqb c "_"); cbn [negb]; [exact IH|].
  cbn [map]. rewrite small_idem. f_equal. exact IH.
Qed.

Lemma letters_kept : forall s, letters (camel_to_snake s) = letters s.
Proof.
  intros s. unfold camel_to_snake. rewrite lower_letters. unfold letters.
  change (map small (unscored (sub_hump (sub_word false s))) = map small (unscored s)).
  rewrite (sub_hump_unscored _ _ (le_n _)), (sub_word_unscored _ _ _ (le_n _)). reflexivity.
Qed.

(** ** Camel case. *)
Definition tailchar (x : ascii) := is_lower x = true \/ is_digit x = true.

Lemma camel_word_shape : forall w, camel_word w <->
  exists c l t, w = c :: l :: t /\ is_upper c = true /\ tailchar l
    /\ Forall tailchar t.
Proof.
  assert (T : forall x, tailchar x <-> In x smalls \/ In x digits).
  { intros x. unfold tailchar. now rewrite lower_spec, digit_spec. }
  intros w. unfold camel_word. split.
  - intros (c & t & E & Hc & Hn & Ht). destruct t as [|l t]; [easy|].
    exists c, l, t. rewrite upper_spec. splits; auto.
    + apply T, Ht. now left.
    + apply Forall_forall. intros x Hx. apply T, Ht. now right.
  - intros (c & l & t & E & Hc & Hl & Ht). exists c, (l :: t). rewrite upper_spec in Hc.
    splits; auto; [easy|]. rewrite Forall_forall in Ht.
    intros x [<-|Hx]; apply T; auto.
Qed.

Lemma sub_hump_step : forall c x t, is_upper x = false ->
  sub_hump (c :: x :: t) = c :: sub_hump (x :: t).
Proof. intros c x t H. rewrite sub_hump_cons. now rewrite H, andb_false_r. Qed.

Lemma tailchar_not_upper : forall x, tailchar x -> is_upper x = false.
Proof. intros x [H|H]; [now apply lower_not_upper|now apply digit_not_upper]. Qed.
Lemma tailchar_not_newline : forall x, tailchar x -> Ascii.eqb x newline = false.
Proof. intros x [H|H]; [now apply lower_not_newline|now apply digit_not_newline]. Qed.
Lemma tailchar_hump : forall x, tailchar x -> is_lower x || is_digit x = true.
Proof. intros x [H|H]; rewrite H; auto using orb_true_r. Qed.

(** After the first pass some words have an underscore before them. *)
Fixpoint mixed (seps : list bool) (ws : list text) : text :=
  match ws with
  | [] => []
  | w :: ws' => (if hd false seps then ["_"%char] else []) ++ w ++ mixed (tl seps) ws'
  end.

Lemma first_pass : forall n ws r b,
  List.length (r ++ concat ws) <= n -> Forall camel_word ws -> Forall tailchar r ->
  exists seps, sub_word b (r ++ concat ws) = r ++ mixed seps ws.
Proof.
  induction n as [|n IH]; intros ws r b L HW HR.
  - destruct r; simpl in L; [|lia]. destruct ws as [|w ws]; [exists []; reflexivity|].
    inversion HW as [|? ? Hw _]; subst. apply camel_word_shape in Hw.
    destruct Hw as (c & l & t & -> & _). simpl in L. lia.
  - destruct r as [|x r].
    + destruct ws as [|w ws]; [exists []; reflexivity|].
      inversion HW as [|? ? Hw HW']; subst. apply camel_word_shape in Hw.
      destruct Hw as (c & l & t & -> & Hc & Hl & Ht). cbn [concat app] in *.
      rewrite sub_word_step;
        [|rewrite (upper_not_lower _ Hc); apply andb_false_r|now apply tailchar_not_upper].
      destruct (IH ws (l :: t) false) as [seps E]; auto.
      { simpl in L |- *. lia. }
      cbn [app] in E. rewrite E. exists (false :: seps). reflexivity.
    + inversion HR as [|? ? Hx HR']; subst. cbn [app] in *.
      destruct (b && is_lower x) eqn:B.
      { apply andb_true_iff in B. destruct B as [-> B]. rewrite sub_word_stay by auto.
        destruct (IH ws r true) as [seps E]; auto; [simpl in L; lia|].
        rewrite E. now exists seps. }
      destruct r as [|y r].
      * destruct ws as [|w ws]; cbn [concat app] in *.
        { exists []. cbn. now rewrite B. }
        inversion HW as [|? ? Hw HW']; subst. apply camel_word_shape in Hw.
        destruct Hw as (c & l & t & -> & Hc & Hl & Ht). cbn [app] in *.
        destruct (is_lower l) eqn:Low.
        { rewrite sub_word_match by (auto using tailchar_not_newline).
          destruct (IH ws (l :: t) true) as [seps E]; auto.
          { simpl in L |- *. lia. }
          cbn [app] in E. rewrite E. exists (true :: seps). reflexivity. }
        rewrite sub_word_skip by auto.
        rewrite sub_word_step by (auto using tailchar_not_upper).
        destruct (IH ws (l :: t) false) as [seps E]; auto.
        { simpl in L |- *. lia. }
        cbn [app] in E. rewrite E. exists (false :: seps). reflexivity.
      * inversion HR' as [|? ? Hy HR'']; subst. cbn [app] in *.
        rewrite sub_word_step by (auto using tailchar_not_upper).
        destruct (IH ws (y :: r) false) as [seps E]; auto; [simpl in L |- *; lia|].
        cbn [app] in E. rewrite E. now exists seps.
Qed.

Lemma second_pass : forall ws seps r x,
  Forall camel_word ws -> tailchar x -> Forall tailchar r ->
  sub_hump (x :: r ++ mixed seps ws)
  = x :: r ++ concat (map (fun w => "_"%char :: w) ws).
Proof.
  induction ws as [|w ws IHw]; intros seps r; revert seps.
  - induction r as [|y r IHr]; intros seps x HW Hx HR.
    + reflexivity.
    + inversion HR; subst. cbn [app]. rewrite sub_hump_step by (now apply tailchar_not_upper).
      f_equal. apply IHr; auto.
  - induction r as [|y r IHr]; intros seps x HW Hx HR.
    + inversion HW as [|? ? Hw HW']; subst. apply camel_word_shape in Hw.
      destruct Hw as (c & l & t & -> & Hc & Hl & Ht).
      cbn [mixed map concat app]. destruct (hd false seps); cbn [app].
      * rewrite sub_hump_step by reflexivity. f_equal.
        rewrite (sub_hump_cons "_" c). cbn [is_lower is_digit].
        change (is_lower "_" || is_digit "_") with false. cbn [andb]. f_equal.
        rewrite sub_hump_step by (now apply tailchar_not_upper). f_equal.
        apply IHw; auto.
      * rewrite sub_hump_cons, (tailchar_hump _ Hx), Hc. cbn [andb]. do 3 f_equal.
        apply IHw; auto.
    + inversion HR; subst. cbn [app]. rewrite sub_hump_step by (now apply tailchar_not_upper).
      f_equal. apply IHr; auto.
Qed.

Lemma small_words : forall ws, ws <> [] ->
  map small (concat (map (fun w => "_"%char :: w) ws)) = "_"%char :: snake ws.
Proof.
  induction ws as [|w ws IH]; intros H; [easy|]. cbn [map concat].
  change (small "_"%char :: map small (w ++ concat (map (fun w => "_"%char :: w) ws))
          = "_"%char :: snake (w :: ws)).
  change (small "_"%char) with "_"%char. f_equal. rewrite map_app.
  destruct ws as [|w2 ws]; [cbn; apply app_nil_r|].
  rewrite IH by easy. reflexivity.
Qed.

Lemma camel_snake : forall ws, Forall camel_word ws ->
  camel_to_snake (concat ws) = snake ws.
Proof.
  intros [|w ws] HW; [reflexivity|].
  inversion HW as [|? ? Hw HW']; subst. apply camel_word_shape in Hw.
  destruct Hw as (c & l & t & -> & Hc & Hl & Ht). cbn [concat app].
  unfold camel_to_snake.
  rewrite sub_word_step by (auto using tailchar_not_upper).
  destruct (first_pass _ ws (l :: t) false (le_n _) HW') as [seps E].
  { constructor; auto. }
  cbn [app] in E. rewrite E. rewrite sub_hump_step by (now apply tailchar_not_upper).
  rewrite second_pass by auto. unfold lower.
  rewrite (map_ext _ _ small_spec).
  change (c :: l :: t ++ concat (map (fun w => "_"%char :: w) ws))
    with ((c :: l :: t) ++ concat (map (fun w => "_"%char :: w) ws)).
  rewrite map_app. destruct ws as [|w2 ws]; [cbn; now rewrite app_nil_r|].
  rewrite small_words by easy. reflexivity.
Qed.

(** ** Different names, different snakes. *)
Definition no_score (w : text) := Forall (fun c => c <> "_"%char) w.

Lemma small_word_shape : forall w, camel_word w ->
  exists c l t, w = c :: l :: t /\ is_upper c = true /\ map small w = small c :: l :: t
    /\ no_score (map small w).
Proof.
  intros w Hw. apply camel_word_shape in Hw. destruct Hw as (c & l & t & -> & Hc & Hl & Ht).
  exists c, l, t.
  assert (E : map small t = t).
  { rewrite <- (map_id t) at 2. apply map_ext_in. intros x Hx.
    rewrite Forall_forall in Ht. destruct (Ht x Hx) as [H|H];
      [now apply small_lower|now apply small_digit]. }
  assert (E2 : map small (c :: l :: t) = small c :: l :: t).
  { cbn [map]. rewrite E. f_equal. f_equal. destruct Hl; auto using small_lower, small_digit. }
  splits; auto. rewrite E2. repeat constructor.
  - apply Ascii.eqb_neq. apply lower_not_score. now apply small_upper.
  - apply Ascii.eqb_neq. destruct Hl; auto using lower_not_score, digit_not_score.
  - eapply Forall_impl; [|exact Ht]. intros x [H|H]; apply Ascii.eqb_neq;
      [now apply lower_not_score|now apply digit_not_score].
Qed.

Lemma small_word_inj : forall v w, camel_word v -> camel_word w ->
  map small v = map small w -> v = w.
Proof.
  intros v w Hv Hw E.
  destruct (small_word_shape v Hv) as (c & l & t & -> & Hc & Ec & _).
  destruct (small_word_shape w Hw) as (c' & l' & t' & -> & Hc' & Ec' & _).
  rewrite Ec, Ec' in E. injection E as E1 E2 E3. subst.
  now rewrite (small_upper_inj c c' Hc Hc' E1).
Qed.

Lemma score_split : forall a b x y, no_score a -> no_score b ->
  a ++ "_"%char :: x = b ++ "_"%char :: y -> a = b /\ x = y.
Proof.
  induction a as [|c a IH]; intros [|d b] x y Ha Hb E; cbn [app] in E.
  - injection E as E. auto.
  - injection E as E1 E2. inversion Hb; subst. easy.
  - injection E as E1 E2. inversion Ha; subst. easy.
  - injection E as E1 E2. inversion Ha; inversion Hb; subst.
    destruct (IH b x y) as [-> ->]; auto.
Qed.
Lemma score_none : forall a b y, no_score a -> a = b ++ "_"%char :: y -> False.
Proof.
  intros a b y H ->. unfold no_score in H. rewrite Forall_app in H. destruct H as [_ H].
  inversion H; subst; easy.
Qed.

Lemma snake_cons : forall w v ws, snake (w :: v :: ws) = map small w ++ "_"%char :: snake (v :: ws).
Proof. reflexivity. Qed.

Lemma snake_inj : forall vs ws, Forall camel_word vs -> Forall camel_word ws ->
  snake vs = snake ws -> vs = ws.
Proof.
  induction vs as [|v vs IH]; intros [|w ws] HV HW E.
  - reflexivity.
  - inversion HW as [|? ? Hw _]; subst.
    destruct (small_word_shape w Hw) as (c & l & t & -> & _ & _ & _).
    destruct ws; discriminate.
  - inversion HV as [|? ? Hv _]; subst.
    destruct (small_word_shape v Hv) as (c & l & t & -> & _ & _ & _).
    destruct vs; discriminate.
  - inversion HV as [|? ? Hv HV']; inversion HW as [|? ? Hw HW']; subst.
    destruct (small_word_shape v Hv) as (_ & _ & _ & _ & _ & _ & Nv).
    destruct (small_word_shape w Hw) as (_ & _ & _ & _ & _ & _ & Nw).
    destruct vs as [|v2 vs], ws as [|w2 ws].
    + f_equal. now apply small_word_inj.
    + rewrite snake_cons in E. now apply score_none in E.
    + rewrite snake_cons in E. symmetry in E. now apply score_none in E.
    + rewrite !snake_cons in E. apply score_split in E; auto. destruct E as [E1 E2].
      f_equal; [now apply small_word_inj|]. now apply IH.
Qed.

(** ** Paths. *)
Lemma teqb_spec : forall a b, teqb a b = true <-> a = b.
Proof.
  intros a b. unfold teqb. destruct (list_eq_dec ascii_dec a b); split; congruence.
Qed.

Lemma starts_spec : forall p s, starts p s = true <-> exists t, s = p ++ t.
Proof.
  intros p s. unfold starts. rewrite teqb_spec. split.
  - intros E. exists (skipn (List.length p) s). rewrite <- E at 1. symmetry. apply firstn_skipn.
  - intros [t ->]. rewrite firstn_app, firstn_all, Nat.sub_diag. cbn. apply app_nil_r.
Qed.

Lemma no_slash : forall f, ~ In "/"%char f -> existsb (Ascii.eqb "/"%char) f = false.
Proof.
  intros f H. apply not_true_is_false. intros E. apply member_spec in E. contradiction.
Qed.
Lemma after_slash_spec : forall a f, ~ In "/"%char f -> after_slash (a ++ "/"%char :: f) = f.
Proof.
  induction a as [|c a IH]; intros f H.
  - cbn. now rewrite (no_slash f H).
  - cbn [app after_slash].
    assert (E : existsb (Ascii.eqb "/"%char) (a ++ "/"%char :: f) = true).
    { apply member_spec. apply in_or_app. right. now left. }
    rewrite E. cbn [negb]. rewrite andb_false_r. now apply IH.
Qed.
Lemma drop_py : forall b, drop_last 3 (b ++ txt ".py") = b.
Proof.
  intros b. unfold drop_last. rewrite app_length.
  replace (List.length b + List.length (txt ".py") - 3) with (List.length b)
    by (cbn; lia).
  rewrite firstn_app, firstn_all, Nat.sub_diag. cbn. apply app_nil_r.
Qed.
Lemma file_no_slash : forall b, plain b -> ~ In "/"%char (file_of b).
Proof.
  intros b H H2. unfold file_of in H2. apply in_app_or in H2. destruct H2 as [H2|H2];
    [contradiction|]. cbn in H2. intuition discriminate.
Qed.
Lemma ends_file : forall b, ends_py (file_of b) = true.
Proof.
  intros b. unfold ends_py, file_of. apply teqb_spec. rewrite app_length.
  replace (List.length b + List.length (chars ".py") - 3) with (List.length b)
    by (cbn; lia).
  rewrite skipn_app, skipn_all, Nat.sub_diag. reflexivity.
Qed.
Lemma base_of : forall pkg b, plain b ->
  drop_last 3 (after_slash (pkg ++ txt "examples/" ++ file_of b)) = b.
Proof.
  intros pkg b H.
  replace (pkg ++ txt "examples/" ++ file_of b)
    with ((pkg ++ txt "examples") ++ "/"%char :: file_of b)
    by (rewrite <- app_assoc; reflexivity).
  rewrite after_slash_spec by (now apply file_no_slash). apply drop_py.
Qed.

(** The script of a class in terms of its name in snake case. *)
Definition written (pkg base : text) (dir : string) (rest : text) : text :=
  pkg ++ chars "examples/" ++ chars dir ++ chars "/" ++ base ++ chars "_" ++ rest ++ chars ".py".

Lemma skip_prefix : forall p t : text, skipn (List.length p) (p ++ t) = t.
Proof. intros. rewrite skipn_app, skipn_all, Nat.sub_diag. reflexivity. Qed.

Lemma not_both : forall s t1 t2, s = txt "error_" ++ t1 -> s = txt "example_" ++ t2 -> False.
Proof. intros s t1 t2 -> E. cbn in E. discriminate. Qed.

Lemma script_cases : forall pkg cls b, plain b ->
  (exists r, camel_to_snake cls = txt "error_" ++ r
     /\ script_path pkg cls (file_of b) = Some (written pkg b "invalid" r))
  \/ (exists r, camel_to_snake cls = txt "example_" ++ r
     /\ script_path pkg cls (file_of b) = Some (written pkg b "valid" r))
  \/ ((forall r, camel_to_snake cls <> txt "error_" ++ r)
      /\ (forall r, camel_to_snake cls <> txt "example_" ++ r)
      /\ script_path pkg cls (file_of b) = None).
Proof.
  intros pkg cls b H. unfold script_path, example_file_name.
  rewrite (base_of pkg b H). generalize (camel_to_snake cls). intros s.
  destruct (starts (txt "example_") s) eqn:E2.
  - right. left. apply starts_spec in E2. destruct E2 as [r ->]. exists r. split; auto.
  - assert (N2 : forall r, s <> txt "example_" ++ r).
    { intros r E. assert (starts (txt "example_") s = true) by (apply starts_spec; eauto).
      congruence. }
    destruct (starts (txt "error_") s) eqn:E1.
    + left. apply starts_spec in E1. destruct E1 as [r ->]. exists r. split; auto.
    + right. right. splits; auto.
      intros r E. assert (starts (txt "error_") s = true) by (apply starts_spec; eauto).
      congruence.
Qed.

Lemma written_inj : forall pkg b1 d1 r1 b2 d2 r2,
  (d1 = "valid" \/ d1 = "invalid")%string -> (d2 = "valid" \/ d2 = "invalid")%string ->
  written pkg b1 d1 r1 = written pkg b2 d2 r2 ->
  d1 = d2 /\ b1 ++ chars "_" ++ r1 = b2 ++ chars "_" ++ r2.
Proof.
  intros pkg b1 d1 r1 b2 d2 r2 H1 H2 E. unfold written in E.
  apply app_inv_head in E. apply app_inv_head in E.
  assert (D : d1 = d2).
  { destruct H1 as [-> | ->], H2 as [-> | ->]; auto; cbn in E; discriminate. }
  split; auto. subst d2. apply app_inv_head in E. apply app_inv_head in E.
  rewrite !app_assoc in E. apply app_inv_tail in E. now rewrite !app_assoc.
Qed.

(** Scripts of one file coincide only for names with the same letters. *)
Lemma same_script_letters : forall pkg b c1 c2 p, plain b ->
  script_path pkg c1 (file_of b) = Some p -> script_path pkg c2 (file_of b) = Some p ->
  camel_to_snake c1 = camel_to_snake c2 /\ letters c1 = letters c2.
Proof.
  intros pkg b c1 c2 p H E1 E2.
  assert (S : camel_to_snake c1 = camel_to_snake c2).
  { destruct (script_cases pkg c1 b H) as [(r1 & S1 & P1)|[(r1 & S1 & P1)|(_ & _ & P1)]];
      destruct (script_cases pkg c2 b H) as [(r2 & S2 & P2)|[(r2 & S2 & P2)|(_ & _ & P2)]];
      try congruence; rewrite S1, S2; rewrite E1 in P1; rewrite E2 in P2;
      injection P1 as P1; injection P2 as P2; rewrite P1 in P2;
      apply written_inj in P2; auto; destruct P2 as [D P2]; try discriminate;
      apply app_inv_head in P2; apply app_inv_head in P2; now subst. }
  split; auto. now rewrite <- (letters_kept c1), <- (letters_kept c2), S.
Qed.

(** Who gets a script, for names in camel case. *)
Definition Example_w := chars "Example".
Definition Error_w := chars "Error".

Lemma example_camel : camel_word Example_w.
Proof.
  apply camel_word_shape. exists "E"%char, "x"%char, (chars "ample"). splits; try reflexivity;
  repeat constructor.
Qed.
Lemma error_camel : camel_word Error_w.
Proof.
  apply camel_word_shape. exists "E"%char, "r"%char, (chars "ror"). splits; try reflexivity;
  repeat constructor.
Qed.

Lemma snake_first : forall w ws pw r, Forall camel_word (w :: ws) -> camel_word pw ->
  snake (w :: ws) = map small pw ++ "_"%char :: r -> w = pw /\ ws <> [] /\ r = snake ws.
Proof.
  intros w ws pw r HW HP E. inversion HW as [|? ? Hw HW']; subst.
  destruct (small_word_shape w Hw) as (_ & _ & _ & _ & _ & _ & Nw).
  destruct (small_word_shape pw HP) as (_ & _ & _ & _ & _ & _ & Np).
  destruct ws as [|v ws].
  - cbn in E. exfalso. now apply score_none in E.
  - rewrite snake_cons in E. apply score_split in E; auto. destruct E as [E1 ->].
    splits; auto; [now apply small_word_inj|easy].
Qed.

Lemma script_camel : forall pkg b ws, plain b -> Forall camel_word ws ->
  (exists rest, ws = Error_w :: rest /\ rest <> []
     /\ script_path pkg (concat ws) (file_of b) = Some (belongs pkg b "invalid" rest))
  \/ (exists rest, ws = Example_w :: rest /\ rest <> []
     /\ script_path pkg (concat ws) (file_of b) = Some (belongs pkg b "valid" rest))
  \/ ((forall rest, rest <> [] -> ws <> Error_w :: rest /\ ws <> Example_w :: rest)
      /\ script_path pkg (concat ws) (file_of b) = None).
Proof.
  intros pkg b ws H HW.
  destruct (script_cases pkg (concat ws) b H)
    as [(r & E & P)|[(r & E & P)|(N1 & N2 & P)]]; rewrite (camel_snake ws HW) in *.
  - left. destruct ws as [|w ws]; [discriminate|].
    change (txt "error_" ++ r) with (map small Error_w ++ "_"%char :: r) in E.
    apply snake_first in E; auto using error_camel. destruct E as (-> & Hn & ->).
    exists ws. splits; auto.
  - right. left. destruct ws as [|w ws]; [discriminate|].
    change (txt "example_" ++ r) with (map small Example_w ++ "_"%char :: r) in E.
    apply snake_first in E; auto using example_camel. destruct E as (-> & Hn & ->).
    exists ws. splits; auto.
  - right. right. split; auto. intros [|v rest] Hr; [easy|].
    split; intros ->; [apply (N1 (snake (v :: rest)))|apply (N2 (snake (v :: rest)))];
      rewrite snake_cons; reflexivity.
Qed.

(** ** What is on the disk at the end. *)
Lemma export_snoc : forall pkg found x, export pkg (found ++ [x]) = export1 pkg (export pkg found) x.
Proof. intros. unfold export. now rewrite fold_left_app. Qed.

Lemma holds_last : forall pkg found p,
  holds (export pkg found) p
  = find (fun fc => ends_py (fst fc) &&
            match script_path pkg (snd fc) (fst fc) with
            | Some q => teqb q p | None => false end) (rev found).
Proof.
  intros pkg found p. induction found as [|[f c] found IH] using rev_ind; [reflexivity|].
  rewrite export_snoc, rev_app_distr. cbn [rev app find fst snd export1].
  destruct (ends_py f); [|exact IH]. cbn [andb].
  destruct (script_path pkg c f) as [q|]; [|exact IH]. cbn [holds].
  destruct (teqb q p); [reflexivity|exact IH].
Qed.

Lemma own_script : forall pkg found,
  (forall fc, In fc found -> ends_py (fst fc) = true) ->
  (forall f c f' c' p, In (f, c) found -> In (f', c') found ->
     script_path pkg c f = Some p -> script_path pkg c' f' = Some p -> (f, c) = (f', c')) ->
  forall f c p, In (f, c) found -> script_path pkg c f = Some p ->
  holds (export pkg found) p = Some (f, c).
Proof.
  intros pkg found Hpy Hinj f c p Hin Hp. rewrite holds_last.
  destruct (find _ (rev found)) as [[f' c']|] eqn:F.
  - apply find_some in F. destruct F as [Hin' F]. apply in_rev in Hin'. cbn [fst snd] in F.
    apply andb_true_iff in F. destruct F as [_ F].
    destruct (script_path pkg c' f') as [q|] eqn:Q; [|discriminate].
    apply teqb_spec in F. subst q. f_equal. symmetry. now apply (Hinj f c f' c' p).
  - exfalso. assert (X := find_none _ _ F (f, c)). cbn [fst snd] in X.
    rewrite Hp in X. assert (Y := Hpy (f, c) Hin). cbn [fst] in Y. rewrite Y in X.
    assert (T : teqb p p = true) by (now apply teqb_spec). rewrite T in X. cbn [andb] in X.
    assert (true = false) by (apply X; now apply -> in_rev). discriminate.
Qed.

(** ** Examples. *)
Definition pkg0 := txt "omtools/".

(** A realistic run: each class keeps its script. *)
Lemma names_computed :
  camel_to_snake (txt "ExampleTensor2Vector") = txt "example_tensor2_vector"
  /\ camel_to_snake (txt "ExampleInternalN2") = txt "example_internal_n2"
  /\ camel_to_snake (txt "ErrorHTTPServer2") = txt "error_http_server2"
  /\ camel_to_snake (txt "Example__ABCd") = txt "example__ab_cd".
Proof. splits; vm_compute; reflexivity. Qed.

Lemma same_file_clash :
  let f := file_of (chars "ex_sum") in
  let c1 := txt "ExampleABC" in let c2 := txt "ExampleAbc" in
  c1 <> c2
  /\ script_path pkg0 c1 f = Some (txt "omtools/examples/valid/ex_sum_abc.py")
  /\ script_path pkg0 c2 f = script_path pkg0 c1 f
  /\ export pkg0 [(f, c1); (f, c2)]
     = [(txt "omtools/examples/valid/ex_sum_abc.py", (f, c2));
        (txt "omtools/examples/valid/ex_sum_abc.py", (f, c1))]
  /\ holds (export pkg0 [(f, c1); (f, c2)]) (txt "omtools/examples/valid/ex_sum_abc.py")
     = Some (f, c2).
Proof. cbv zeta. splits; vm_compute; congruence || reflexivity. Qed.

(** Classes of the files 'ex_einsum.py' and 'ex_einsum_new.py', both in camel case. *)
Lemma files_clash :
  let f1 := file_of (chars "ex_einsum") in let f2 := file_of (chars "ex_einsum_new") in
  let c1 := concat [Example_w; chars "New"; chars "Sum"] in
  let c2 := concat [Example_w; chars "Sum"] in
  f1 <> f2
  /\ script_path pkg0 c1 f1 = Some (txt "omtools/examples/valid/ex_einsum_new_sum.py")
  /\ script_path pkg0 c2 f2 = script_path pkg0 c1 f1
  /\ holds (export pkg0 [(f1, c1); (f2, c2)])
       (txt "omtools/examples/valid/ex_einsum_new_sum.py") = Some (f2, c2).
Proof. cbv zeta. splits; vm_compute; congruence || reflexivity. Qed.

(** ** Every class its own script. *)
Lemma apart_split : forall b1 b2 r1 r2, apart b1 b2 ->
  b1 ++ chars "_" ++ r1 = b2 ++ chars "_" ++ r2 -> b1 = b2 /\ r1 = r2.
Proof.
  assert (G : forall (b1 b2 : text) r1 r2, b1 ++ chars "_" ++ r1 = b2 ++ chars "_" ++ r2 ->
    (b1 = b2 /\ r1 = r2) \/ (exists t, b1 ++ chars "_" ++ t = b2)
    \/ (exists t, b2 ++ chars "_" ++ t = b1)).
  { induction b1 as [|c b1 IH]; intros [|d b2] r1 r2 E.
    - injection E as E. auto.
    - injection E as E1 E2. right. left. exists b2. now subst d.
    - injection E as E1 E2. right. right. exists b1. now subst c.
    - cbn [app] in E. injection E as E1 E2. subst d.
      destruct (IH b2 r1 r2 E2) as [[-> ->]|[[t <-]|[t <-]]]; eauto.
      + right. left. now exists t.
      + right. right. now exists t. }
  intros b1 b2 r1 r2 A E. destruct (G b1 b2 r1 r2 E) as [R|[[t T]|[t T]]]; auto.
  - now destruct (A t) as [X _].
  - now destruct (A t) as [_ X].
Qed.

Lemma file_inj : forall a b, file_of a = file_of b -> a = b.
Proof. intros a b E. unfold file_of in E. now apply app_inv_tail in E. Qed.

Lemma every_script : forall pkg (found : list (text * list text)),
  (forall b ws, In (b, ws) found -> plain b /\ Forall camel_word ws) ->
  (forall b1 ws1 b2 ws2, In (b1, ws1) found -> In (b2, ws2) found -> b1 <> b2 -> apart b1 b2) ->
  let disk := export pkg (map (fun p => (file_of (fst p), concat (snd p))) found) in
  forall b rest, rest <> [] ->
  (In (b, Example_w :: rest) found ->
     holds disk (belongs pkg b "valid" rest) = Some (file_of b, concat (Example_w :: rest)))
  /\ (In (b, Error_w :: rest) found ->
     holds disk (belongs pkg b "invalid" rest) = Some (file_of b, concat (Error_w :: rest))).
Proof.
  intros pkg found HF HA disk b rest Hr.
  set (all := map (fun p => (file_of (fst p), concat (snd p))) found) in *.
  assert (In_all : forall f c, In (f, c) all -> exists b ws, In (b, ws) found
    /\ f = file_of b /\ c = concat ws).
  { intros f c H. apply in_map_iff in H. destruct H as [[b' ws'] [E H]]. cbn in E.
    injection E as <- <-. eauto. }
  assert (Own : forall f c p, In (f, c) all -> script_path pkg c f = Some p ->
    holds disk p = Some (f, c)).
  { apply own_script.
    - intros [f c] H. apply In_all in H. destruct H as (b' & ws & _ & -> & _). apply ends_file.
    - intros f c f' c' p H H' P P'. apply In_all in H. apply In_all in H'.
      destruct H as (b1 & ws1 & I1 & -> & ->). destruct H' as (b2 & ws2 & I2 & -> & ->).
      destruct (HF _ _ I1) as [Hp1 W1]. destruct (HF _ _ I2) as [Hp2 W2].
      assert (B : forall r1 r2, b1 ++ chars "_" ++ r1 = b2 ++ chars "_" ++ r2 -> b1 = b2 /\ r1 = r2).
      { intros r1 r2 E. destruct (list_eq_dec ascii_dec b1 b2) as [->|Hb].
        - split; auto. now apply app_inv_head, app_inv_head in E.
        - apply apart_split; auto. eapply HA; eauto. }
      destruct (script_cases pkg (concat ws1) b1 Hp1)
        as [(r1 & S1 & Q1)|[(r1 & S1 & Q1)|(_ & _ & Q1)]];
      destruct (script_cases pkg (concat ws2) b2 Hp2)
        as [(r2 & S2 & Q2)|[(r2 & S2 & Q2)|(_ & _ & Q2)]]; try congruence;
      rewrite P in Q1; rewrite P' in Q2; injection Q1 as Q1; injection Q2 as Q2;
      rewrite Q1 in Q2; apply written_inj in Q2; auto; destruct Q2 as [D Q2]; try discriminate;
      apply B in Q2; destruct Q2 as [-> ->]; f_equal;
      rewrite (camel_snake _ W1) in S1; rewrite (camel_snake _ W2) in S2; f_equal;
      apply snake_inj; auto; congruence. }
  assert (Here : forall ws, In (b, ws) found -> In (file_of b, concat ws) all).
  { intros ws H. apply in_map_iff. now exists (b, ws). }
  split; intros H; apply Own; auto; destruct (HF _ _ H) as [Hp W];
    destruct (script_camel pkg b _ Hp W) as [(r & E & _ & P)|[(r & E & _ & P)|(N & P)]].
  - discriminate.
  - injection E as <-. exact P.
  - exfalso. now destruct (N rest Hr) as [_ X].
  - injection E as <-. exact P.
  - discriminate.
  - exfalso. now destruct (N rest Hr) as [X _].
Qed.

(** Without camel case: names that differ in their letters. *)
Lemma every_script_letters : forall pkg (found : list (text * text)),
  (forall b c, In (b, c) found -> plain b) ->
  (forall b1 c1 b2 c2, In (b1, c1) found -> In (b2, c2) found -> b1 <> b2 -> apart b1 b2) ->
  (forall b c1 c2, In (b, c1) found -> In (b, c2) found -> letters c1 = letters c2 -> c1 = c2) ->
  forall b c p, In (b, c) found -> script_path pkg c (file_of b) = Some p ->
  holds (export pkg (map (fun x => (file_of (fst x), snd x)) found)) p = Some (file_of b, c).
Proof.
  intros pkg found HF HA HL b c p Hin Hp.
  set (all := map (fun x => (file_of (fst x), snd x)) found) in *.
  assert (In_all : forall f c, In (f, c) all -> exists b, In (b, c) found /\ f = file_of b).
  { intros f c0 H. apply in_map_iff in H. destruct H as [[b' c'] [E H]]. cbn in E.
    injection E as <- <-. eauto. }
  apply own_script; auto.
  - intros [f c0] H. apply In_all in H. destruct H as (b' & _ & ->). apply ends_file.
  - intros f c1 f' c2 q H H' P P'. apply In_all in H. apply In_all in H'.
    destruct H as (b1 & I1 & ->). destruct H' as (b2 & I2 & ->).
    assert (Hp1 := HF _ _ I1). assert (Hp2 := HF _ _ I2).
    assert (B : b1 = b2).
    { destruct (list_eq_dec ascii_dec b1 b2) as [->|Hb]; auto.
      destruct (script_cases pkg c1 b1 Hp1)
        as [(r1 & S1 & Q1)|[(r1 & S1 & Q1)|(_ & _ & Q1)]];
      destruct (script_cases pkg c2 b2 Hp2)
        as [(r2 & S2 & Q2)|[(r2 & S2 & Q2)|(_ & _ & Q2)]]; try congruence;
      rewrite P in Q1; rewrite P' in Q2; injection Q1 as Q1; injection Q2 as Q2;
      rewrite Q1 in Q2; apply written_inj in Q2; auto; destruct Q2 as [D Q2]; try discriminate;
      apply apart_split in Q2; auto; try (now destruct Q2); eapply HA; eauto. }
    subst b2. destruct (same_script_letters pkg b1 c1 c2 q Hp1 P P') as [_ L].
    f_equal. eapply HL; eauto.
  - apply in_map_iff. now exists (b, c).
Qed.

(** A concrete directory meets the hypotheses. *)
Lemma every_script_instance :
  let found := [(chars "ex_einsum_new", [Example_w; chars "Inner"; chars "Tensor"]);
                (chars "ex_einsum_old", [Example_w; chars "Inner"; chars "Tensor"]);
                (chars "ex_einsum_new", [Error_w; chars "Inner"; chars "Tensor"])] in
  (forall b ws, In (b, ws) found -> plain b /\ Forall camel_word ws)
  /\ (forall b1 ws1 b2 ws2, In (b1, ws1) found -> In (b2, ws2) found -> b1 <> b2 -> apart b1 b2)
  /\ map fst (export pkg0 (map (fun p => (file_of (fst p), concat (snd p))) found))
     = [txt "omtools/examples/invalid/ex_einsum_new_inner_tensor.py";
        txt "omtools/examples/valid/ex_einsum_old_inner_tensor.py";
        txt "omtools/examples/valid/ex_einsum_new_inner_tensor.py"].
Proof.
  cbv zeta.
  assert (T : camel_word (chars "Tensor")).
  { apply camel_word_shape. exists "T"%char, "e"%char, (chars "nsor").
    splits; try reflexivity; repeat constructor. }
  assert (I : camel_word (chars "Inner")).
  { apply camel_word_shape. exists "I"%char, "n"%char, (chars "ner").
    splits; try reflexivity; repeat constructor. }
  assert (P1 : plain (chars "ex_einsum_new")).
  { unfold plain. rewrite <- member_spec. vm_compute. discriminate. }
  assert (P2 : plain (chars "ex_einsum_old")).
  { unfold plain. rewrite <- member_spec. vm_compute. discriminate. }
  assert (L : forall (a b : text), List.length a = List.length b -> apart a b).
  { intros a b E t. split; intros X; apply (f_equal (@List.length ascii)) in X;
      rewrite !app_length in X; cbn in X; lia. }
  splits.
  - intros b ws [E|[E|[E|[]]]]; injection E as <- <-; split; auto;
      repeat constructor; auto using example_camel, error_camel.
  - intros b1 ws1 b2 ws2 H1 H2 _. apply L.
    destruct H1 as [E|[E|[E|[]]]]; injection E as <- _;
      destruct H2 as [E|[E|[E|[]]]]; injection E as <- _; reflexivity.
  - vm_compute. reflexivity.
Qed.
