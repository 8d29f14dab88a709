(** C50, C51: the order of the operands decides whether einsum has derivatives. *)
From Coq Require Import Reals Arith List Lia.
From Verif Require Import PyBase RSum NdArray NdEinsum Component JacSpec CompEinsum SpecEinsum EinsumStrings EinsumCalc EinsumProofs
  EinsumNew CompEinsumSparse EinsumSparse EinsumSparseMain.
Import ListNotations.
Local Open Scope nat_scope.

Lemma last_or_new : forall names, repetitions_last names \/
  exists l1 a l2 b l3, names = l1 ++ a :: l2 ++ b :: l3 /\ In a l1 /\ ~ In b (l1 ++ a :: l2).
Proof.
  induction names as [|x l IH] using rev_ind.
  - left. exists [], []. splits; [reflexivity|constructor|]. intros y [].
  - destruct IH as [(ds & rs & -> & Hd & Hr)|(l1 & a & l2 & b & l3 & -> & Ha & Hb)].
    + destruct (in_dec Nat.eq_dec x ds) as [Hx|Hx].
      * left. exists ds, (rs ++ [x]). splits; [now rewrite app_assoc|assumption|].
        intros y Hy. apply in_app_or in Hy as [Hy|[<-|[]]]; auto.
      * destruct rs as [|r rs].
        -- left. exists (ds ++ [x]), []. rewrite !app_nil_r. splits; [reflexivity| |intros y []].
           apply NoDup_rev in Hd. rewrite <- (rev_involutive (ds ++ [x])). apply NoDup_rev.
           rewrite rev_app_distr. cbn [rev app]. constructor; [|assumption]. now rewrite <- in_rev.
        -- right. exists ds, r, rs, x, []. splits.
           ++ now rewrite <- !app_assoc.
           ++ apply Hr. now left.
           ++ intros H. apply in_app_or in H as [H|H]; [contradiction|]. apply Hx, Hr, H.
    + right. exists l1, a, l2, b, (l3 ++ [x]). splits; auto. rewrite <- !app_assoc. cbn [app]. now rewrite <- !app_assoc.
Qed.

Theorem einsum_order : forall op subs out ext names,
  np_subscripts op = Some (subs, out) -> length subs = length names ->
  (forall j j', j < length names -> j' < length names -> nth j names 0 = nth j' names 0 ->
     map ext (nth j subs []) = map ext (nth j' subs [])) ->
  NoDup out -> incl out (concat subs) ->
  (forall r, In r subs -> length r <= length (unused_chars op)) ->
  (repetitions_last names -> exists args c, NoDup args /\ incl names args /\
     einsum_comp op names (map (map ext) subs) = Some c /\ correct c (einsum_meaning subs out ext args names)) /\
  (~ repetitions_last names -> forall c ins p, einsum_comp op names (map (map ext) subs) = Some c ->
     c_partials c ins p = None).
Proof.
  intros op subs out ext names Hp Hl Hs Hn Ho Hu. split.
  - intros (ds & rs & -> & Hd & Hr).
    destruct (einsum_repeated_last op subs out ext ds rs Hp Hl Hd Hr Hs Hn Ho Hu) as (c & Ec & _ & _ & Hc).
    exists ds, c. splits; auto. intros y Hy. apply in_app_or in Hy as [Hy|Hy]; auto.
  - intros N c ins p Hc. destruct (last_or_new names) as [C|(l1 & a & l2 & b & l3 & -> & Ha & Hb)]; [contradiction|].
    eapply einsum_repeated_raises; eauto.
Qed.

Lemma keeps_dec subs out names m : {keeps subs out names m} + {~ keeps subs out names m}.
Proof.
  unfold keeps. generalize (length names). intros n. induction n as [|n IH].
  - left. intros j Hj. lia.
  - destruct IH as [H|H].
    + destruct (Nat.eq_dec (nth n names 0) m) as [E|E].
      * destruct (Exists_dec (fun l => In l out) (nth n subs [])) as [X|X]; [intros l; apply in_dec, Nat.eq_dec| |].
        -- left. intros j Hj Ej. destruct (Nat.eq_dec j n) as [->|]; [|apply H; [lia|assumption]].
           apply Exists_exists in X. exact X.
        -- right. intros K. apply X. apply Exists_exists. destruct (K n ltac:(lia) E) as (l & H1 & H2). eauto.
      * left. intros j Hj Ej. destruct (Nat.eq_dec j n) as [->|]; [contradiction|]. apply H; [lia|assumption].
    + right. intros K. apply H. intros j Hj Ej. apply K; [lia|assumption].
Qed.

Lemma split_two : forall (ds : list nat) q q', q < q' -> q' < length ds ->
  exists l1 l2 l3, ds = l1 ++ nth q ds 0 :: l2 ++ nth q' ds 0 :: l3.
Proof.
  intros ds q q' Hq Hq'. destruct (nth_split ds 0 Hq') as (m1 & m3 & E & L).
  assert (Hq1 : q < length m1) by lia. destruct (nth_split m1 0 Hq1) as (l1 & l2 & E1 & L1).
  assert (X : nth q ds 0 = nth q m1 0). { rewrite E at 1. now rewrite app_nth1 by assumption. }
  exists l1, l2, m3. rewrite X. rewrite E at 1. rewrite E1 at 1. now rewrite <- app_assoc.
Qed.

Lemma order_or_not subs out names ds rs : names = ds ++ rs -> NoDup ds ->
  (forall q q', q < q' -> q' < length ds -> keeps subs out names (nth q' ds 0) -> keeps subs out names (nth q ds 0)) \/
  exists l1 a l2 b l3, names = l1 ++ a :: l2 ++ b :: l3 /\ ~ In b (l1 ++ a :: l2) /\
    ~ keeps subs out names a /\ keeps subs out names b.
Proof.
  intros En Hd.
  assert (D : forall n, n <= length ds ->
    (forall q q', q < q' -> q' < n -> keeps subs out names (nth q' ds 0) -> keeps subs out names (nth q ds 0)) \/
    exists q q', q < q' /\ q' < length ds /\ ~ keeps subs out names (nth q ds 0) /\ keeps subs out names (nth q' ds 0)).
  { induction n as [|n IH]; intros Hn; [left; intros; lia|]. destruct (IH ltac:(lia)) as [H|H]; [|now right].
    destruct (keeps_dec subs out names (nth n ds 0)) as [K|K].
    - assert (B : forall m, m <= n -> (forall q, q < m -> keeps subs out names (nth q ds 0)) \/
                    exists q, q < m /\ ~ keeps subs out names (nth q ds 0)).
      { induction m as [|m IHm]; intros Hm; [left; intros; lia|]. destruct (IHm ltac:(lia)) as [A|(q & A & B)].
        - destruct (keeps_dec subs out names (nth m ds 0)) as [Km|Km].
          + left. intros q Hq. destruct (Nat.eq_dec q m) as [->|]; [assumption|]. apply A. lia.
          + right. exists m. split; [lia|assumption].
        - right. exists q. split; [lia|assumption]. }
      destruct (B n (le_n n)) as [A|(q & A & A')].
      + left. intros q q' Hq Hq' K'. destruct (Nat.eq_dec q' n) as [->|]; [now apply A|]. apply (H q q'); auto. lia.
      + right. exists q, n. splits; auto; lia.
    - left. intros q q' Hq Hq' K'. destruct (Nat.eq_dec q' n) as [->|]; [contradiction|]. apply (H q q'); auto. lia. }
  destruct (D (length ds) (le_n _)) as [H|(q & q' & Hq & Hq' & K & K')]; [now left|]. right.
  destruct (split_two ds q q' Hq Hq') as (l1 & l2 & l3 & E).
  exists l1, (nth q ds 0), l2, (nth q' ds 0), (l3 ++ rs). splits; auto.
  - rewrite En. rewrite E at 1. rewrite <- !app_assoc. cbn [app]. now rewrite <- app_assoc.
  - rewrite E in Hd. intros C.
    replace (l1 ++ nth q ds 0 :: l2 ++ nth q' ds 0 :: l3) with ((l1 ++ nth q ds 0 :: l2) ++ nth q' ds 0 :: l3) in Hd
      by (now rewrite <- app_assoc).
    apply NoDup_remove_2 in Hd. apply Hd. apply in_or_app. now left.
Qed.

Theorem sparse_order : forall op subs out ext names,
  np_subscripts op = Some (subs, out) -> length subs = length names ->
  (forall j j', j < length names -> j' < length names -> nth j names 0 = nth j' names 0 ->
     map ext (nth j subs []) = map ext (nth j' subs [])) ->
  NoDup out -> incl out (concat subs) ->
  (forall r, In r subs -> length r <= length (unused_chars op)) ->
  (forall l, In l (concat subs) -> 0 < ext l) ->
  (kept_first subs out names -> exists args c, NoDup args /\ incl names args /\
     einsum_sparse_comp op names (map (map ext) subs) = Some c /\ correct c (einsum_meaning subs out ext args names)) /\
  (~ kept_first subs out names -> forall c ins p, einsum_sparse_comp op names (map (map ext) subs) = Some c ->
     c_partials c ins p = None).
Proof.
  intros op subs out ext names Hp Hl Hs Hn Ho Hu Hx. split.
  - intros (ds & rs & -> & Hd & Hr & Hk).
    destruct (sparse_repeated_last op subs out ext ds rs Hp Hl Hd Hr Hs Hn Ho Hu Hx Hk) as (c & Ec & _ & _ & Hc).
    exists ds, c. splits; auto. intros y Hy. apply in_app_or in Hy as [Hy|Hy]; auto.
  - intros N c ins p Hc. destruct (last_or_new names) as [(ds & rs & E & Hd & Hr)|(l1 & a & l2 & b & l3 & -> & Ha & Hb)].
    + destruct (order_or_not subs out names ds rs E Hd) as [Hk|(l1 & a & l2 & b & l3 & El & Hb & Ka & Kb)].
      * exfalso. apply N. exists ds, rs. now splits.
      * subst names. rewrite El in *. eapply sparse_order_raises; eauto.
    + eapply sparse_repeated_raises; eauto.
Qed.

(** x, y, x in this order is fine for both; x, x, y is not; x without a letter of the
    output before y with one is not in the sparse format. *)
Example order_cases :
  repetitions_last [0; 1; 0] /\ ~ repetitions_last [0; 0; 1] /\
  kept_first [[105]; [105]] [105] [0; 1] /\ ~ kept_first [[105]; [106]] [106] [0; 1] /\ repetitions_last [0; 1].
Proof.
  splits.
  - exists [0; 1], [0]. splits; [reflexivity|repeat constructor; cbn; lia|]. intros y [<-|[]]. now left.
  - intros (ds & rs & E & Hd & Hr). destruct ds as [|a [|b ds]].
    + cbn in E. subst rs. apply (Hr 0). now left.
    + cbn in E. injection E as <- <-. destruct (Hr 1) as [C|[]]; [right; now left|discriminate].
    + cbn in E. injection E as <- <- E. inversion Hd as [|? ? C _]. apply C. now left.
  - exists [0; 1], []. splits; [reflexivity|repeat constructor; cbn; lia|intros y []|].
    intros q q' Hq Hq' _ j Hj _. cbn in Hj. exists 105. destruct j as [|[|j]]; cbn; auto. lia.
  - intros (ds & rs & E & Hd & Hr & Hk). 
    assert (Ed : ds = [0; 1]).
    { destruct ds as [|a [|b [|d ds]]]; cbn in E.
      - subst rs. destruct (Hr 0); now left.
      - injection E as <- <-. destruct (Hr 1) as [C|[]]; [now left|discriminate].
      - injection E as <- <- _. reflexivity.
      - discriminate. }
    subst ds. destruct (Hk 0 1 ltac:(lia) ltac:(cbn; lia)) with (j := 0) as (l & [<-|[]] & [C|[]]).
    + intros [|[|j]] Hj Ej; cbn in *; try lia. exists 106. auto.
    + cbn. lia.
    + reflexivity.
    + discriminate.
  - exists [0; 1], []. splits; [reflexivity|repeat constructor; cbn; lia|intros y []].
Qed.
