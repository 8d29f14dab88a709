(** Subscript strings: the code's own splitting agrees with NumPy's. *)
From Coq Require Import Lia Arith List Bool.
From Verif Require Import PyBase NdArray NdEinsum CompReorder CompEinsum.
Import ListNotations.

Definition letters (l : list nat) : Prop := forallb isalpha l = true.

Lemma isalpha_not : forall c, isalpha c = true ->
  c <> c_comma /\ c <> c_minus /\ c <> c_gt /\ c <> c_space.
Proof.
  intros c H. unfold isalpha in H. rewrite orb_true_iff, !andb_true_iff, !Nat.leb_le in H.
  unfold c_comma, c_minus, c_gt, c_space. lia.
Qed.

Lemma letters_In : forall l c, letters l -> In c l -> isalpha c = true.
Proof. intros l c H Hc. unfold letters in H. rewrite forallb_forall in H. auto. Qed.

Lemma letters_app : forall a b, letters a -> letters b -> letters (a ++ b).
Proof. unfold letters. intros a b Ha Hb. now rewrite forallb_app, Ha, Hb. Qed.

(** ---- splitting ------------------------------------------------------- *)

Lemma split_arrow_eq : forall s a b, split_arrow s = (a, Some b) ->
  s = a ++ c_minus :: c_gt :: b.
Proof.
  intros s. remember (length s) as n eqn:Hn. revert s Hn.
  induction n as [n IH] using (well_founded_induction lt_wf). intros s Hn a b H.
  destruct s as [|c [|d s]]; [discriminate|discriminate|].
  change (split_arrow (c :: d :: s)) with
    (if Nat.eqb c c_minus && Nat.eqb d c_gt then ([], Some s)
     else let (a0, b0) := split_arrow (d :: s) in (c :: a0, b0)) in H.
  destruct (Nat.eqb c c_minus && Nat.eqb d c_gt) eqn:E.
  - apply andb_true_iff in E. destruct E as [E1 E2].
    apply Nat.eqb_eq in E1. apply Nat.eqb_eq in E2. inversion H; subst. reflexivity.
  - destruct (split_arrow (d :: s)) as [a' b'] eqn:E'.
    inversion H; subst. cbn [app]. f_equal.
    apply (IH (length (d :: s))) with (s := d :: s) in E'; [exact E'|cbn; lia|reflexivity].
Qed.

Lemma split_arrow_app : forall a b, ~ In c_minus a ->
  split_arrow (a ++ c_minus :: c_gt :: b) = (a, Some b).
Proof.
  induction a as [|c a IH]; intros b H.
  - cbn. reflexivity.
  - cbn [app]. assert (Hc : c <> c_minus) by (intros ->; apply H; now left).
    assert (Hr : exists d r, a ++ c_minus :: c_gt :: b = d :: r).
    { destruct a; cbn; eauto. }
    destruct Hr as (d & r & Hr).
    pose proof (IH b ltac:(intros Hi; apply H; now right)) as E. rewrite Hr in *.
    change (split_arrow (c :: d :: r)) with
      (if Nat.eqb c c_minus && Nat.eqb d c_gt then ([], Some r)
       else let (a0, b0) := split_arrow (d :: r) in (c :: a0, b0)).
    apply Nat.eqb_neq in Hc. rewrite Hc. cbn [andb]. now rewrite E.
Qed.

Lemma split_commas_chars : forall s acc c, In c s ->
  c = c_comma \/ exists r, In r (split_commas acc s) /\ In c r.
Proof.
  assert (Hacc : forall s acc c, In c acc -> exists r, In r (split_commas acc s) /\ In c r).
  { induction s as [|d s IH]; intros acc c Hc; cbn [split_commas].
    - exists acc. split; [now left|assumption].
    - destruct (Nat.eqb d c_comma); [exists acc; split; [now left|assumption]|].
      apply IH. apply in_or_app. now left. }
  induction s as [|d s IH]; intros acc c H; [destruct H|].
  destruct H as [->|H]; cbn [split_commas].
  - destruct (Nat.eqb_spec c c_comma); [now left|right].
    apply Hacc. apply in_or_app. right. now left.
  - destruct (Nat.eqb d c_comma).
    + destruct (IH [] c H) as [|(r & Hr & Hc)]; [now left|right].
      exists r. split; [now right|assumption].
    + now apply IH.
Qed.

Lemma split_commas_nonempty : forall s acc, split_commas acc s <> [].
Proof. induction s as [|c s IH]; intros acc; cbn; [|destruct (Nat.eqb c c_comma)]; try discriminate. apply IH. Qed.

Lemma tolist_blanks : forall s acc,
  tolist acc (filter (fun c => negb (Nat.eqb c c_space)) s) = tolist acc s.
Proof.
  induction s as [|c s IH]; intros acc; [reflexivity|].
  cbn [filter]. destruct (Nat.eqb_spec c c_space) as [->|Hc]; cbn [negb].
  - rewrite IH. reflexivity.
  - cbn [tolist]. now rewrite !IH.
Qed.

Lemma tolist_letters : forall s acc, letters s -> tolist acc s = [acc ++ s].
Proof.
  induction s as [|c s IH]; intros acc H; cbn [tolist].
  - now rewrite app_nil_r.
  - unfold letters in H. cbn [forallb] in H. apply andb_true_iff in H. destruct H as [Hc Hs].
    rewrite Hc. rewrite IH by assumption. now rewrite <- app_assoc.
Qed.

Lemma tolist_split : forall a acc rest,
  (forall c, In c a -> c = c_comma \/ isalpha c = true) ->
  tolist acc (a ++ c_minus :: rest) = split_commas acc a ++ tolist [] rest.
Proof.
  induction a as [|c a IH]; intros acc rest H.
  - reflexivity.
  - cbn [app tolist split_commas].
    assert (Ha : forall d, In d a -> d = c_comma \/ isalpha d = true) by (intros; apply H; now right).
    destruct (H c ltac:(now left)) as [->|Hc].
    + cbn [isalpha]. change (isalpha c_comma) with false.
      change (Nat.eqb c_comma c_comma || Nat.eqb c_comma c_minus) with true.
      change (Nat.eqb c_comma c_comma) with true. cbv iota.
      now rewrite IH.
    + rewrite Hc. destruct (isalpha_not c Hc) as (H1 & _).
      apply Nat.eqb_neq in H1. rewrite H1. now apply IH.
Qed.

Lemma parsed_letters : forall s subs out, np_subscripts s = Some (subs, out) ->
  (forall r, In r subs -> letters r) /\ letters out /\ subs <> [].
Proof.
  intros s subs out H. unfold np_subscripts in H.
  destruct (split_arrow _) as [ins [o|]]; [|discriminate].
  destruct (forallb (forallb isalpha) (split_commas [] ins) && forallb isalpha o) eqn:E; [|discriminate].
  apply andb_true_iff in E. destruct E as [E1 E2]. inversion H; subst.
  rewrite forallb_forall in E1. splits; auto using split_commas_nonempty.
Qed.

Theorem tolist_is_parse : forall s subs out, np_subscripts s = Some (subs, out) ->
  subscripts_tolist s = subs ++ [out].
Proof.
  intros s subs out H. destruct (parsed_letters _ _ _ H) as (Hl & Ho & _).
  unfold np_subscripts in H. unfold subscripts_tolist. rewrite <- tolist_blanks.
  destruct (split_arrow _) as [ins [o|]] eqn:E; [|discriminate].
  destruct (forallb (forallb isalpha) (split_commas [] ins) && forallb isalpha o); [|discriminate].
  inversion H; subst. clear H. apply split_arrow_eq in E. rewrite E.
  rewrite tolist_split.
  - f_equal. change (tolist [] (c_gt :: out)) with (tolist [] out).
    now rewrite tolist_letters.
  - intros c Hc. destruct (split_commas_chars ins [] c Hc) as [|(r & Hr & Hcr)]; [now left|right].
    exact (letters_In r c (Hl r Hr) Hcr).
Qed.

(** ---- building strings ------------------------------------------------- *)

Lemma split_commas_letters : forall r acc rest, letters r ->
  split_commas acc (r ++ c_comma :: rest) = (acc ++ r) :: split_commas [] rest.
Proof.
  induction r as [|c r IH]; intros acc rest H.
  - cbn. now rewrite app_nil_r.
  - unfold letters in H. cbn [forallb] in H. apply andb_true_iff in H. destruct H as [Hc Hr].
    cbn [app split_commas]. destruct (isalpha_not c Hc) as (H1 & _).
    apply Nat.eqb_neq in H1. rewrite H1. rewrite IH by assumption. now rewrite <- app_assoc.
Qed.

Lemma split_commas_one : forall r acc, letters r -> split_commas acc r = [acc ++ r].
Proof.
  induction r as [|c r IH]; intros acc H; cbn.
  - now rewrite app_nil_r.
  - unfold letters in H. cbn [forallb] in H. apply andb_true_iff in H. destruct H as [Hc Hr].
    destruct (isalpha_not c Hc) as (H1 & _). apply Nat.eqb_neq in H1. rewrite H1.
    rewrite IH by assumption. now rewrite <- app_assoc.
Qed.

(** the operands separated by commas *)
Fixpoint join (l : list (list nat)) : list nat :=
  match l with
  | [] => []
  | [r] => r
  | r :: l' => r ++ c_comma :: join l'
  end.

Lemma removelast_commas : forall l,
  removelast (flat_map (fun r => r ++ [c_comma]) l) = join l.
Proof.
  induction l as [|r l IH]; [reflexivity|].
  destruct l as [|r' l].
  - cbn [flat_map join]. rewrite app_nil_r. apply removelast_last.
  - change (flat_map (fun r0 => r0 ++ [c_comma]) (r :: r' :: l))
      with ((r ++ [c_comma]) ++ flat_map (fun r0 => r0 ++ [c_comma]) (r' :: l)).
    rewrite removelast_app.
    + rewrite IH. rewrite <- app_assoc. reflexivity.
    + cbn [flat_map]. destruct r'; discriminate.
Qed.

Lemma split_join : forall l, l <> [] -> (forall r, In r l -> letters r) ->
  split_commas [] (join l) = l.
Proof.
  induction l as [|r l IH]; intros Hn Hl; [congruence|].
  destruct l as [|r' l].
  - cbn [join]. rewrite split_commas_one; [reflexivity|]. apply Hl. now left.
  - change (join (r :: r' :: l)) with (r ++ c_comma :: join (r' :: l)).
    rewrite split_commas_letters by (apply Hl; now left).
    rewrite IH; [reflexivity|discriminate|]. intros; apply Hl; now right.
Qed.

Lemma join_chars : forall l c, (forall r, In r l -> letters r) -> In c (join l) ->
  c = c_comma \/ isalpha c = true.
Proof.
  induction l as [|r l IH]; intros c Hl H; [destruct H|].
  destruct l as [|r' l].
  - right. apply (letters_In r); [apply Hl; now left|assumption].
  - change (join (r :: r' :: l)) with (r ++ c_comma :: join (r' :: l)) in H.
    apply in_app_or in H. destruct H as [H|[H|H]].
    + right. apply (letters_In r); [apply Hl; now left|assumption].
    + left. congruence.
    + apply IH; [|assumption]. intros; apply Hl; now right.
Qed.

Theorem parse_to_string : forall subs out,
  subs <> [] -> (forall r, In r subs -> letters r) -> letters out ->
  np_subscripts (to_string (subs ++ [out])) = Some (subs, out).
Proof.
  intros subs out Hn Hl Ho. unfold to_string.
  rewrite removelast_last, last_last, removelast_commas.
  unfold np_subscripts. rewrite filter_all.
  - change ([c_minus; c_gt] ++ out) with (c_minus :: c_gt :: out).
    rewrite split_arrow_app.
    + rewrite split_join by assumption.
      assert (E : forallb (forallb isalpha) subs = true).
      { apply forallb_forall. exact Hl. }
      unfold letters in Ho. now rewrite E, Ho.
    + intros H. apply (join_chars subs _ Hl) in H. destruct H as [H|H]; discriminate.
  - intros c Hc. apply negb_true_iff, Nat.eqb_neq. intros ->.
    apply in_app_or in Hc. destruct Hc as [H|[H|[H|H]]].
    + apply (join_chars subs _ Hl) in H. destruct H as [H|H]; discriminate.
    + discriminate.
    + discriminate.
    + apply (letters_In out) in H; [discriminate|assumption].
Qed.
