(** C113: constant arrays that NumPy broadcasts. *)
From Coq Require Import Reals Lra Lia Arith List Bool ZArith.
From Verif Require Import PyBase RSum NdArray Component JacSpec SpecBroadcast.
Import ListNotations.
Local Open Scope nat_scope.

Lemma repeat_rev (A : Type) (x : A) n : rev (repeat x n) = repeat x n.
Proof.
  induction n as [|n IH]; [reflexivity|]. cbn [repeat rev]. rewrite IH.
  change [x] with (repeat x 1). now rewrite <- repeat_app, Nat.add_comm.
Qed.

Definition fits_rev (t s : list nat) : Prop :=
  forall n b, nth_error t n = Some b -> b = 1 \/ nth_error s n = Some b.

Lemma fits_rev_cons b t a s : fits_rev (b :: t) (a :: s) <-> (b = 1 \/ a = b) /\ fits_rev t s.
Proof.
  unfold fits_rev. split.
  - intros H. split.
    + destruct (H 0 b eq_refl) as [E|E]; [now left|]. right. now injection E.
    + intros n c Hc. exact (H (S n) c Hc).
  - intros [H0 H] [|n] c Hc.
    + injection Hc as <-. destruct H0 as [E|E]; [now left|]. right. now rewrite E.
    + exact (H n c Hc).
Qed.

Lemma fits_rev_nil t : fits_rev t [] <-> t = repeat 1 (length t).
Proof.
  induction t as [|b t IH].
  - split; [reflexivity|]. intros _ [|n] c Hc; discriminate.
  - split.
    + intros H. cbn [length repeat]. f_equal.
      * destruct (H 0 b eq_refl) as [E|E]; [assumption|discriminate].
      * apply IH. intros n c Hc. destruct (H (S n) c Hc) as [E|E]; [now left|discriminate].
    + intros E. cbn [length repeat] in E. injection E as -> E. apply IH in E.
      intros [|n] c Hc; [injection Hc as <-; now left|]. destruct (E n c Hc) as [F|F]; [now left|]. destruct n; discriminate.
Qed.

Lemma bcast_rev_fits : forall t s, fits_rev t s <->
  exists r, bcast_rev t s = Some r /\ r = s ++ repeat 1 (length r - length s).
Proof.
  induction t as [|b t IH]; intros s.
  - split.
    + intros _. exists s. split; [reflexivity|]. rewrite Nat.sub_diag. cbn. now rewrite app_nil_r.
    + intros _ [|n] c Hc; discriminate.
  - destruct s as [|a s].
    + rewrite fits_rev_nil. cbn [bcast_rev]. split.
      * intros E. eexists. split; [reflexivity|]. cbn [app]. now rewrite Nat.sub_0_r.
      * intros (r & E & F). injection E as <-. cbn [app] in F. now rewrite Nat.sub_0_r in F.
    + rewrite fits_rev_cons, (IH s). cbn [bcast_rev]. split.
      * intros [H0 (r & -> & F)]. destruct (Nat.eqb_spec b a) as [E|E].
        -- eexists. split; [reflexivity|]. cbn [app length]. rewrite E. f_equal. exact F.
        -- destruct H0 as [->|H0]; [|congruence]. cbn [Nat.eqb]. eexists. split; [reflexivity|].
           cbn [app length]. f_equal. exact F.
      * intros (r & E & F). destruct (bcast_rev t s) as [r0|]; [|discriminate].
        destruct (Nat.eqb_spec b a) as [->|N].
        -- injection E as <-. split; [now right|]. exists r0. split; [reflexivity|]. cbn [app length] in F.
           now injection F.
        -- destruct (Nat.eqb_spec b 1) as [->|N1].
           ++ injection E as <-. split; [now left|]. exists r0. split; [reflexivity|]. cbn [app length] in F. now injection F.
           ++ destruct (Nat.eqb_spec a 1) as [->|N2]; [|discriminate]. injection E as <-. cbn [app length] in F.
              injection F as F0 _. contradiction.
Qed.

Lemma bcast_fits t s : stretches t s <->
  exists r, bcast t s = Some r /\ r = repeat 1 (length r - length s) ++ s.
Proof.
  unfold stretches. change (fits_rev (rev t) (rev s) <-> exists r, bcast t s = Some r /\ r = repeat 1 (length r - length s) ++ s).
  rewrite bcast_rev_fits. unfold bcast. split.
  - intros (r & -> & E). exists (rev r). split; [reflexivity|]. rewrite rev_length. rewrite rev_length in E.
    rewrite E at 1. rewrite rev_app_distr, rev_involutive, repeat_rev. reflexivity.
  - intros (r & E & F). destruct (bcast_rev (rev t) (rev s)) as [r0|]; [|discriminate]. injection E as <-.
    exists r0. split; [reflexivity|]. rewrite !rev_length in *. apply (f_equal (@rev nat)) in F.
    rewrite rev_involutive, rev_app_distr, repeat_rev in F. exact F.
Qed.

Lemma bcast_length t s r : bcast t s = Some r -> length r = Nat.max (length t) (length s).
Proof.
  unfold bcast. assert (H : forall t s r, bcast_rev t s = Some r -> length r = Nat.max (length t) (length s)).
  { clear. induction t as [|b t IH]; intros s r.
    - cbn. intros E. now injection E as <-.
    - destruct s as [|a s]; cbn [bcast_rev].
      + intros E. injection E as <-. cbn [length]. lia.
      + destruct (bcast_rev t s) as [r0|] eqn:E0; [|discriminate]. apply IH in E0.
        destruct (Nat.eqb b a); [|destruct (Nat.eqb b 1); [|destruct (Nat.eqb a 1); [|discriminate]]];
          intros E; injection E as <-; cbn [length]; lia. }
  destruct (bcast_rev (rev t) (rev s)) as [r0|] eqn:E; [|discriminate]. intros F. injection F as <-.
  apply H in E. rewrite !rev_length in E. now rewrite rev_length.
Qed.

(** ---- which entry goes where ---- *)

Lemma clip_app : forall t l b i, length t = length l ->
  clip (t ++ [b]) (l ++ [i]) = clip t l ++ [if Nat.eqb b 1 then 0 else i].
Proof.
  induction t as [|a t IH]; intros [|x l] b i H; try discriminate; [reflexivity|].
  cbn [app clip]. f_equal. apply IH. now injection H.
Qed.
Lemma clip_rev : forall t l, length t = length l -> rev (clip t l) = clip (rev t) (rev l).
Proof.
  induction t as [|a t IH]; intros [|x l] H; try discriminate; [reflexivity|].
  cbn [clip rev]. rewrite clip_app by (rewrite !rev_length; now injection H). rewrite IH by now injection H. reflexivity.
Qed.
Lemma clip_length : forall t l, length t = length l -> length (clip t l) = length t.
Proof.
  induction t as [|a t IH]; intros [|x l] H; try discriminate; [reflexivity|]. cbn [clip length].
  f_equal. apply IH. now injection H.
Qed.
Lemma clip_nth : forall t l n b, length t = length l -> nth_error t n = Some b ->
  nth_error (clip t l) n = if Nat.eqb b 1 then Some 0 else nth_error l n.
Proof.
  induction t as [|a t IH]; intros [|x l] n b H; try discriminate; [destruct n; discriminate|].
  destruct n as [|n]; cbn [nth_error clip].
  - intros E. injection E as ->. now destruct (Nat.eqb b 1).
  - intros E. apply IH; [now injection H|assumption].
Qed.

Lemma meets_clip t i l : length l = length t ->
  (forall n b, nth_error (rev t) n = Some b -> b <> 1 -> nth_error (rev l) n = nth_error (rev i) n) ->
  meets t i (clip t l).
Proof.
  intros Hl H. split; [now apply clip_length|]. intros n b Hn. rewrite clip_rev by auto.
  rewrite (clip_nth _ _ n b) by (rewrite ?rev_length; auto). destruct (Nat.eqb_spec b 1) as [E|E].
  - now left.
  - right. split; [assumption|]. now apply (H n b).
Qed.

Lemma same_entries (A : Type) : forall l l' : list A, (forall n, nth_error l n = nth_error l' n) -> l = l'.
Proof.
  induction l as [|x l IH]; intros [|y l'] H; [reflexivity|specialize (H 0); discriminate|specialize (H 0); discriminate|].
  f_equal.
  - specialize (H 0). now injection H.
  - apply IH. intros n. exact (H (S n)).
Qed.
Lemma firstn_entry (A : Type) : forall k (l : list A) n, n < k -> nth_error (firstn k l) n = nth_error l n.
Proof.
  induction k as [|k IH]; intros [|x l] [|n] H; try lia; try reflexivity. cbn [firstn nth_error]. apply IH. lia.
Qed.

Lemma meets_unique t i j j' : meets t i j -> meets t i j' -> j = j'.
Proof.
  intros [L H] [L' H']. rewrite <- (rev_involutive j), <- (rev_involutive j'). f_equal.
  apply same_entries. intros n. destruct (nth_error (rev t) n) as [b|] eqn:E.
  - destruct (H n b E) as [[A B]|[A B]], (H' n b E) as [[A' B']|[A' B']]; congruence.
  - apply nth_error_None in E. rewrite rev_length in E.
    rewrite (proj2 (nth_error_None (rev j) n)) by (rewrite rev_length; lia).
    symmetry. apply nth_error_None. rewrite rev_length. lia.
Qed.

Lemma meets_inb t s i j : stretches t s -> inb s i -> meets t i j -> inb t j.
Proof.
  intros Hst Hi [L H]. rewrite <- (rev_involutive j), <- (rev_involutive t). apply inb_rev.
  apply inb_rev in Hi. revert L H Hst Hi. rewrite <- (rev_length j), <- (rev_length t). unfold stretches.
  generalize (rev t) (rev j) (rev s) (rev i). clear. intros t.
  induction t as [|b t IH]; intros j s i L H Hst Hi; destruct j as [|y j]; try discriminate; [exact I|].
  cbn [inb]. split.
  - destruct (H 0 b eq_refl) as [[-> E]|[N E]].
    + injection E as ->. lia.
    + destruct (Hst 0 b eq_refl) as [F|F]; [contradiction|]. destruct s as [|a s]; [discriminate|].
      injection F as ->. destruct i as [|x i]; [discriminate|]. injection E as ->. apply Hi.
  - apply (IH j (tl s) (tl i)).
    + now injection L.
    + intros n c Hc. destruct (H (S n) c Hc) as [F|[N F]]; [now left|]. right. split; [assumption|].
      cbn [nth_error] in F. rewrite F. destruct i; [now destruct n|reflexivity].
    + intros n c Hc. destruct (Hst (S n) c Hc) as [F|F]; [now left|]. right. destruct s; [discriminate|assumption].
    + destruct s as [|a s], i as [|x i]; try contradiction; [exact I|apply Hi].
Qed.

Lemma meets_exists t s i : stretches t s -> inb s i -> exists j, meets t i j /\ inb t j.
Proof.
  intros Hst Hi. assert (E : exists j, meets t i j).
  { exists (clip t (skipn (length (repeat 0 (length t) ++ i) - length t) (repeat 0 (length t) ++ i))).
    assert (L : length (skipn (length (repeat 0 (length t) ++ i) - length t) (repeat 0 (length t) ++ i)) = length t).
    { rewrite skipn_length, app_length, repeat_length. lia. }
    apply meets_clip; [assumption|]. intros n b Hn Nb.
    rewrite <- firstn_rev, rev_app_distr.
    assert (n < length t) by (rewrite <- rev_length; apply nth_error_Some; congruence).
    destruct (Hst n b Hn) as [F|F]; [contradiction|].
    assert (n < length i). { rewrite (inb_length _ _ Hi), <- rev_length. apply nth_error_Some. congruence. }
    rewrite firstn_entry by assumption.
    rewrite nth_error_app1 by (rewrite rev_length; lia). reflexivity. }
  destruct E as [j Hj]. exists j. split; [assumption|]. eapply meets_inb; eauto.
Qed.

(** ---- sizes ---- *)

Fixpoint rravel (s i : list nat) : nat :=
  match s, i with
  | a :: s', x :: i' => x + a * rravel s' i'
  | _, _ => 0
  end.

Lemma rravel_app : forall s i a x, length s = length i ->
  rravel (s ++ [a]) (i ++ [x]) = rravel s i + size s * x.
Proof.
  induction s as [|b s IH]; intros [|y i] a x H; try discriminate.
  - cbn [app rravel size]. lia.
  - cbn [app rravel size]. rewrite IH by now injection H. ring.
Qed.

Lemma ravel_rravel : forall s i, length s = length i -> ravel s i = rravel (rev s) (rev i).
Proof.
  induction s as [|a s IH]; intros [|x i] H; try discriminate; [reflexivity|].
  cbn [ravel rev]. rewrite rravel_app by (rewrite !rev_length; now injection H).
  rewrite <- IH by now injection H. rewrite size_rev. lia.
Qed.

Lemma size_ones n : size (repeat 1 n) = 1.
Proof. induction n as [|n IH]; [reflexivity|]. cbn [repeat size]. lia. Qed.

Lemma fits_size : forall t s, fits_rev t s -> 0 < size s -> size t <= size s.
Proof.
  induction t as [|b t IH]; intros s H Hs.
  - cbn [size]. lia.
  - destruct s as [|a s].
    + apply fits_rev_nil in H. rewrite H, size_ones. cbn [size]. lia.
    + apply fits_rev_cons in H as [H0 H]. cbn [size] in *.
      assert (0 < size s) by (destruct (size s); lia). assert (0 < a) by (destruct a; lia).
      specialize (IH s H H1). destruct H0 as [->|<-]; nia.
Qed.

Lemma stretches_size t s : stretches t s -> 0 < size s -> size t <= size s.
Proof.
  intros H Hs. rewrite <- (size_rev t), <- (size_rev s). apply fits_size; [exact H|]. now rewrite size_rev.
Qed.

Definition meets_rev (t i j : list nat) : Prop :=
  length j = length t /\
  forall n b, nth_error t n = Some b ->
    (b = 1 /\ nth_error j n = Some 0) \/ (b <> 1 /\ nth_error j n = nth_error i n).

Lemma zeros_rravel : forall t j, (forall n b, nth_error t n = Some b -> nth_error j n = Some 0) -> rravel t j = 0.
Proof.
  induction t as [|b t IH]; intros [|y j] H; try reflexivity. cbn [rravel].
  specialize (H 0 b eq_refl) as H0. injection H0 as ->. rewrite IH; [lia|]. intros n c Hc. exact (H (S n) c Hc).
Qed.
Lemma ones_rravel : forall s i, inb s i -> size s = 1 -> rravel s i = 0.
Proof.
  induction s as [|a s IH]; intros [|x i] Hi E; try reflexivity. cbn [inb] in Hi. cbn [size rravel] in *.
  destruct Hi as [Hx Hi]. apply Nat.eq_mul_1 in E as [-> E]. rewrite IH by assumption. lia.
Qed.

Lemma same_place : forall t s i j, fits_rev t s -> inb s i -> meets_rev t i j -> size t = size s -> 0 < size s ->
  rravel t j = rravel s i.
Proof.
  induction t as [|b t IH]; intros s i j Hf Hi [L H] E Hs.
  - cbn [rravel]. symmetry. apply ones_rravel; [assumption|]. rewrite <- E. reflexivity.
  - destruct s as [|a s].
    + destruct i; [|contradiction]. change (rravel [] []) with 0. apply fits_rev_nil in Hf. apply zeros_rravel. intros n c Hc.
      destruct (H n c Hc) as [[_ F]|[N _]]; [assumption|]. exfalso. apply N.
      rewrite Hf in Hc. apply nth_error_In in Hc. now apply repeat_spec in Hc.
    + destruct i as [|x i]; [contradiction|]. destruct j as [|y j]; [discriminate|].
      apply fits_rev_cons in Hf as [H0 Hf]. cbn [inb] in Hi. destruct Hi as [Hx Hi]. cbn [size] in E, Hs.
      assert (Ps : 0 < size s) by (destruct (size s); lia). assert (Pa : 0 < a) by (destruct a; lia).
      pose proof (fits_size t s Hf Ps) as Hle.
      assert (Eb : b = a). { destruct H0 as [->|<-]; [|reflexivity]. destruct a as [|[|a]]; [lia|reflexivity|nia]. }
      subst b. cbn [rravel]. rewrite (IH s i j); try assumption.
      * f_equal. destruct (H 0 a eq_refl) as [[-> F]|[_ F]]; injection F as ->; [lia|reflexivity].
      * split; [now injection L|]. intros n c Hc. exact (H (S n) c Hc).
      * apply Nat.mul_cancel_l in E; [assumption|lia].
Qed.

Lemma same_ravel t s i j : stretches t s -> inb s i -> meets t i j -> size t = size s -> ravel t j = ravel s i.
Proof.
  intros Hst Hi Hm E. pose proof (inb_size_pos _ _ Hi) as P. destruct Hm as [L Hm].
  rewrite (ravel_rravel t j) by auto. rewrite (ravel_rravel s i) by (symmetry; now apply inb_length).
  apply same_place; [exact Hst|now apply inb_rev|split; [now rewrite !rev_length|exact Hm]|now rewrite !size_rev|now rewrite size_rev].
Qed.

(** ---- outputs[name] = y ---- *)

Lemma size_one_stretches : forall t s, size t = 1 -> stretches t s.
Proof.
  intros t s E n b Hb. left. rewrite <- size_rev in E. revert n Hb E. generalize (rev t). clear. intros t.
  induction t as [|a t IH]; intros [|n] Hb E; try discriminate; cbn [size] in E; apply Nat.eq_mul_1 in E as [-> E].
  - now injection Hb.
  - exact (IH n Hb E).
Qed.

Theorem assign_fills s y : (exists z, assign_output s y = Some z) <-> size (shp y) = size s \/ stretches (shp y) s.
Proof.
  unfold assign_output. destruct (Nat.eqb_spec (size (shp y)) (size s)) as [E|E].
  - split; [now left|]. intros _. eauto.
  - destruct (Nat.eqb_spec (size (shp y)) 1) as [F|F].
    + split; [|eauto]. intros _. right. now apply size_one_stretches.
    + rewrite bcast_fits. split.
      * intros [z Hz]. right. destruct (bcast (shp y) s) as [r|]; [|discriminate]. exists r. split; [reflexivity|].
        cbv zeta in Hz. destruct (list_eq_dec _ _ _) as [G|]; [exact G|discriminate].
      * intros [C|(r & -> & G)]; [contradiction|]. cbv zeta. destruct (list_eq_dec _ _ _) as [|N]; [eauto|contradiction].
Qed.

Theorem assign_entries s y : stretches (shp y) s ->
  exists z, assign_output s y = Some z /\ shp z = s /\
    forall i j, inb s i -> meets (shp y) i j -> get z i = get y j.
Proof.
  intros Hst. unfold assign_output. destruct (Nat.eqb_spec (size (shp y)) (size s)) as [E|E].
  - eexists. split; [reflexivity|]. split; [reflexivity|]. intros i j Hi Hm. unfold get. cbn [np_reshape shp dat].
    f_equal. symmetry. now apply same_ravel.
  - destruct (Nat.eqb_spec (size (shp y)) 1) as [F|F].
    + eexists. split; [reflexivity|]. split; [reflexivity|]. intros i j Hi Hm. unfold get. cbn [shp dat]. f_equal.
      pose proof (meets_inb _ _ _ _ Hst Hi Hm) as Hj. apply ravel_lt in Hj. lia.
    + destruct (proj1 (bcast_fits _ _) Hst) as (r & Er & G). rewrite Er. cbv zeta.
      destruct (list_eq_dec _ _ _) as [_|N]; [|contradiction]. eexists. split; [reflexivity|]. split; [reflexivity|].
      intros i j Hi Hm. rewrite get_of_fun by assumption. unfold bcast_get. f_equal.
      apply (meets_unique (shp y) i); [|assumption].
      pose proof (bcast_length _ _ _ Er) as Lr. pose proof (inb_length _ _ Hi) as Li.
      set (k := length r - length s) in *. set (l := repeat 0 k ++ i).
      assert (Ll : length l = length r). { unfold l. rewrite app_length, repeat_length. unfold k. lia. }
      apply meets_clip.
      * rewrite skipn_length. lia.
      * intros n b Hn Nb. rewrite <- firstn_rev.
        assert (n < length (shp y)) by (rewrite <- rev_length; apply nth_error_Some; congruence).
        rewrite firstn_entry by assumption. unfold l. rewrite rev_app_distr.
        destruct (Hst n b Hn) as [C|C]; [contradiction|].
        rewrite nth_error_app1; [reflexivity|]. rewrite rev_length, Li, <- rev_length. apply nth_error_Some. congruence.
Qed.
