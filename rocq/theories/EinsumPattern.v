(** The sparsity pattern built in setup of the sparse einsum. *)
From Coq Require Import Reals Lia Arith List Bool Sorted.
From Verif Require Import PyBase RSum NdArray NdEinsum Component JacSpec CompReorder CompEinsum
  SpecEinsum EinsumStrings EinsumCalc EinsumProofs CompEinsumSparse.
Import ListNotations.
Local Open Scope nat_scope.

(** ---- np.unique ------------------------------------------------------------ *)

Lemma row_compare_eq : forall a b, row_compare a b = Eq -> a = b.
Proof.
  induction a as [|x a IH]; intros [|y b] H; cbn in H; try discriminate; [reflexivity|].
  destruct (Nat.compare_spec x y); try discriminate. subst. f_equal. auto.
Qed.

Lemma row_compare_refl : forall a, row_compare a a = Eq.
Proof. induction a as [|x a IH]; [reflexivity|]. cbn. now rewrite Nat.compare_refl. Qed.

Lemma row_compare_gt : forall a b, row_compare a b = Gt -> row_compare b a = Lt.
Proof.
  induction a as [|x a IH]; intros [|y b] H; cbn in *; try discriminate; [reflexivity|].
  destruct (Nat.compare_spec x y); try discriminate.
  - subst. rewrite Nat.compare_refl. auto.
  - assert (E : (y ?= x) = Lt) by now apply Nat.compare_lt_iff. now rewrite E.
Qed.

Lemma row_compare_trans : forall a b c,
  row_compare a b = Lt -> row_compare b c = Lt -> row_compare a c = Lt.
Proof.
  induction a as [|x a IH]; intros [|y b] [|z c] H1 H2; cbn in *; try discriminate; try reflexivity.
  destruct (Nat.compare_spec x y); try discriminate; destruct (Nat.compare_spec y z); try discriminate.
  - subst. rewrite Nat.compare_refl. eauto.
  - subst. assert (E : (y ?= z) = Lt) by now apply Nat.compare_lt_iff. now rewrite E.
  - subst. assert (E : (x ?= z) = Lt) by now apply Nat.compare_lt_iff. now rewrite E.
  - assert (E : (x ?= z) = Lt) by (apply Nat.compare_lt_iff; lia). now rewrite E.
Qed.

Lemma row_insert_In : forall r l x, In x (row_insert r l) <-> x = r \/ In x l.
Proof.
  intros r l x. induction l as [|y l IH]; cbn [row_insert].
  - cbn. intuition.
  - destruct (row_compare r y) eqn:E.
    + apply row_compare_eq in E. subst. cbn. intuition.
    + cbn. intuition.
    + cbn. rewrite IH. intuition.
Qed.

Definition row_lt a b := row_compare a b = Lt.

Lemma row_insert_sorted : forall r l, StronglySorted row_lt l -> StronglySorted row_lt (row_insert r l).
Proof.
  intros r l H. induction H as [|y l Hl IH Hy]; cbn [row_insert].
  - constructor; constructor.
  - destruct (row_compare r y) eqn:E.
    + constructor; assumption.
    + constructor; [constructor; assumption|]. constructor; [exact E|].
      rewrite Forall_forall in Hy |- *. intros z Hz. unfold row_lt in *.
      eapply row_compare_trans; [exact E|]. auto.
    + constructor; [assumption|]. rewrite Forall_forall in Hy |- *. intros z Hz.
      apply row_insert_In in Hz. destruct Hz as [->|Hz]; [|auto].
      now apply row_compare_gt.
Qed.

Lemma unique_rows_In : forall l x, In x (unique_rows l) <-> In x l.
Proof.
  induction l as [|r l IH]; intros x; cbn; [tauto|]. rewrite row_insert_In.
  unfold unique_rows in IH. rewrite IH. intuition.
Qed.

Lemma unique_rows_NoDup : forall l, NoDup (unique_rows l).
Proof.
  intros l. assert (H : StronglySorted row_lt (unique_rows l)).
  { induction l as [|r l IH]; cbn; [constructor|]. now apply row_insert_sorted. }
  induction H as [|y l' Hl IH Hy]; constructor; [|assumption].
  intros Hi. rewrite Forall_forall in Hy. specialize (Hy y Hi). unfold row_lt in Hy.
  rewrite row_compare_refl in Hy. discriminate.
Qed.

(** ---- columns and rows ------------------------------------------------------ *)

Lemma inbb_inb : forall s idx, inbb s idx = true <-> inb s idx.
Proof.
  induction s as [|n s IH]; intros [|i idx]; cbn [inbb inb]; try (split; [discriminate|tauto]).
  - tauto.
  - rewrite andb_true_iff, Nat.ltb_lt, IH. tauto.
Qed.

Lemma nth_tile : forall l m a b, a < m -> b < length l ->
  nth (a * length l + b) (tile_list l m) 0 = nth b l 0.
Proof.
  intros l m. induction m as [|m IH]; intros a b Ha Hb; [lia|].
  unfold tile_list. cbn [repeat concat]. fold (tile_list l m). destruct a as [|a].
  - cbn [Nat.mul Nat.add]. now rewrite app_nth1.
  - cbn [Nat.mul]. rewrite app_nth2 by lia.
    replace (length l + a * length l + b - length l) with (a * length l + b) by lia.
    apply IH; lia.
Qed.

Lemma tile_length : forall l m, length (tile_list l m) = m * length l.
Proof.
  intros l m. unfold tile_list. induction m as [|m IH]; [reflexivity|].
  cbn [repeat concat]. rewrite app_length, IH. reflexivity.
Qed.

Lemma repeat_list_length : forall l n, length (repeat_list l n) = length l * n.
Proof.
  intros l n. unfold repeat_list. induction l as [|x l IH]; [reflexivity|].
  cbn [flat_map length]. rewrite app_length, repeat_length, IH. lia.
Qed.

Lemma nth_repeat_list : forall l n a b, a < length l -> b < n ->
  nth (a * n + b) (repeat_list l n) 0 = nth a l 0.
Proof.
  induction l as [|x l IH]; intros n a b Ha Hb; [cbn in Ha; lia|].
  unfold repeat_list. cbn [flat_map]. fold (repeat_list l n). destruct a as [|a].
  - cbn [Nat.mul Nat.add]. rewrite app_nth1 by now rewrite repeat_length.
    now rewrite nth_repeat_lt.
  - cbn [Nat.mul nth]. rewrite app_nth2 by (rewrite repeat_length; lia). rewrite repeat_length.
    replace (n + a * n + b - n) with (a * n + b) by lia. apply IH; cbn in Ha; lia.
Qed.

Definition uniform (L : nat) (cols : list (list nat)) : Prop := forall c, In c cols -> length c = L.

Lemma rows_of_In : forall L cols r, cols <> [] -> uniform L cols ->
  (In r (rows_of cols) <-> exists t, t < L /\ r = map (fun c => nth t c 0) cols).
Proof.
  intros L cols r Hne Hu. unfold rows_of.
  assert (E : length (hd [] cols) = L).
  { destruct cols as [|c cols]; [congruence|]. apply Hu. now left. }
  rewrite E, in_map_iff. split.
  - intros (t & <- & Ht). apply in_seq in Ht. exists t. split; [lia|reflexivity].
  - intros (t & Ht & ->). exists t. split; [reflexivity|]. apply in_seq. lia.
Qed.

Lemma append_length : forall acc cols, length acc = length cols ->
  length (append_columns acc cols) = length acc.
Proof. intros acc cols H. unfold append_columns. rewrite map_length, combine_length. lia. Qed.

Lemma append_uniform : forall acc cols L L', uniform L acc -> uniform L' cols ->
  uniform (L + L') (append_columns acc cols).
Proof.
  intros acc cols L L' H H' c Hc. unfold append_columns in Hc. apply in_map_iff in Hc.
  destruct Hc as ([a b] & <- & Hp). cbn [fst snd]. rewrite app_length.
  rewrite (H a), (H' b); [reflexivity| |]; [eapply in_combine_r|eapply in_combine_l]; exact Hp.
Qed.

Lemma append_row : forall acc cols L t, length acc = length cols -> uniform L acc ->
  map (fun c => nth t c 0) (append_columns acc cols) =
  if t <? L then map (fun c => nth t c 0) acc else map (fun c => nth (t - L) c 0) cols.
Proof.
  induction acc as [|a acc IH]; intros [|b cols] L t Hl Hu; try discriminate.
  - cbn [append_columns combine map]. destruct (t <? L); reflexivity.
  - unfold append_columns. cbn [combine map fst snd]. fold (append_columns acc cols).
    rewrite (IH cols L t); [|cbn in Hl; lia|intros c Hc; apply Hu; now right].
    assert (Ea : length a = L) by (apply Hu; now left).
    destruct (Nat.ltb_spec t L); cbn [map]; f_equal.
    + apply app_nth1. lia.
    + rewrite app_nth2 by lia. now rewrite Ea.
Qed.

Lemma rows_of_append : forall acc cols L L' r, acc <> [] -> length acc = length cols ->
  uniform L acc -> uniform L' cols ->
  (In r (rows_of (append_columns acc cols)) <-> In r (rows_of acc) \/ In r (rows_of cols)).
Proof.
  intros acc cols L L' r Hne Hl Hu Hu'.
  assert (Hne' : cols <> []).
  { intros ->. destruct acc; [congruence|discriminate]. }
  assert (Hnea : append_columns acc cols <> []).
  { intros E. apply (f_equal (@length _)) in E. rewrite append_length in E by assumption.
    destruct acc; [congruence|discriminate]. }
  rewrite (rows_of_In (L + L') _ _ Hnea (append_uniform _ _ _ _ Hu Hu')).
  rewrite (rows_of_In L _ _ Hne Hu), (rows_of_In L' _ _ Hne' Hu'). split.
  - intros (t & Ht & ->). rewrite (append_row _ _ L) by assumption.
    destruct (Nat.ltb_spec t L).
    + left. exists t. auto.
    + right. exists (t - L). split; [lia|reflexivity].
  - intros [(t & Ht & ->)|(t & Ht & ->)].
    + exists t. split; [lia|]. rewrite (append_row _ _ L) by assumption.
      apply Nat.ltb_lt in Ht. now rewrite Ht.
    + exists (L + t). split; [lia|]. rewrite (append_row _ _ L) by assumption.
      assert (E : L + t <? L = false) by (apply Nat.ltb_ge; lia). rewrite E.
      now replace (L + t - L) with t by lia.
Qed.

Lemma fold_rows : forall (pl : nat -> list (list nat)) m, 0 < m -> forall locs,
  (forall i, In i locs -> length (pl i) = m /\ exists L, uniform L (pl i)) ->
  forall acc L, length acc = m -> uniform L acc -> forall r,
  (In r (rows_of (fold_left (fun acc i => append_columns acc (pl i)) locs acc)) <->
   In r (rows_of acc) \/ exists i, In i locs /\ In r (rows_of (pl i))).
Proof.
  intros pl m Hm. induction locs as [|i locs IH]; intros Hp acc L Hl Hu r; cbn [fold_left].
  - split; [now left|]. intros [H|(i & [] & _)]. assumption.
  - destruct (Hp i ltac:(now left)) as [Hli [Li Hui]].
    assert (Hne : acc <> []) by (intros ->; cbn in Hl; lia).
    rewrite (IH ltac:(intros; apply Hp; now right) _ (L + Li)).
    + rewrite (rows_of_append _ _ L Li) by (assumption || congruence). split.
      * intros [[H|H]|(j & Hj & H)]; [now left|right; exists i; split; [now left|assumption]|].
        right. exists j. split; [now right|assumption].
      * intros [H|(j & [<-|Hj] & H)]; [left; now left|left; now right|right; eauto].
    + rewrite append_length; congruence.
    + now apply append_uniform.
Qed.

Lemma rows_of_zeros : forall m r, 0 < m -> (In r (rows_of (repeat [0] m)) <-> r = repeat 0 m).
Proof.
  intros m r Hm. rewrite (rows_of_In 1).
  - assert (E : map (fun c : list nat => nth 0 c 0) (repeat [0] m) = repeat 0 m).
    { clear. induction m as [|m IH]; [reflexivity|]. cbn. now f_equal. }
    split.
    + intros (t & Ht & ->). assert (t = 0) by lia. subst. exact E.
    + intros ->. exists 0. split; [lia|now rewrite E].
  - destruct m; [lia|discriminate].
  - intros c Hc. apply repeat_spec in Hc. now subst.
Qed.

(** ---- one place ---------------------------------------------------------------- *)

Lemma surviving_In : forall sub out idx, NoDup out -> idx < length out ->
  mem idx (surviving sub out) = mem (nth idx out 0) sub.
Proof.
  intros sub out idx Hn Hi. apply eq_iff_eq_true. rewrite !mem_In. unfold surviving.
  rewrite in_flat_map. split.
  - intros (l & Hl & H). destruct (mem l out) eqn:E; [|destruct H].
    destruct H as [<-|[]]. apply mem_In in E. now rewrite nth_find_pos.
  - intros H. exists (nth idx out 0). split; [assumption|].
    assert (E : mem (nth idx out 0) out = true) by (apply mem_In; now apply nth_In).
    rewrite E. left. now apply find_pos_nth.
Qed.

Lemma map_seq_list : forall (B : Type) (f : nat -> B) (l : list nat),
  map (fun i => f (nth i l 0)) (seq 0 (length l)) = map f l.
Proof.
  intros B f l. rewrite <- (map_map (fun i => nth i l 0) f). f_equal.
  apply nth_ext with (d := 0) (d' := 0); [now rewrite map_length, seq_length|].
  intros i Hi. rewrite map_length, seq_length in Hi. now rewrite nth_map_seq.
Qed.

Lemma surviving_nil : forall sub out,
  surviving sub out = [] <-> (forall l, In l sub -> ~ In l out).
Proof.
  intros sub out. unfold surviving. induction sub as [|x sub IH]; cbn [flat_map].
  - split; [intros _ l []|reflexivity].
  - destruct (mem x out) eqn:E.
    + split; [discriminate|]. intros H. apply mem_In in E. exfalso. apply (H x); [now left|assumption].
    + apply mem_not_In in E. cbn [app]. rewrite IH. split.
      * intros H l [<-|Hl]; auto.
      * intros H l Hl. apply H. now right.
Qed.

Section Place.
Variables (ext : nat -> nat) (sub out : list nat) (s : shape).
Hypothesis Hs : s = map ext sub.
Hypothesis Hno : NoDup out.
Let rems := filter (fun l => negb (mem l sub)) out.
Let ind := unravel_columns s.

Lemma out_columns_eq : out_columns sub out ind =
  map (fun l => if mem l sub then Some (nth (find_pos sub l) ind []) else None) out.
Proof.
  unfold out_columns.
  rewrite <- (map_seq_list _ (fun l => if mem l sub then Some (nth (find_pos sub l) ind []) else None)).
  apply map_ext_in. intros i Hi. apply in_seq in Hi. rewrite surviving_In by (assumption || lia).
  reflexivity.
Qed.

Lemma remainder_eq : remainder_shape sub out (map ext out) = map ext rems.
Proof.
  unfold remainder_shape, rems.
  transitivity (flat_map (fun i => (fun l => if mem l sub then [] else [ext l]) (nth i out 0))
                         (seq 0 (length out))).
  - rewrite !flat_map_concat_map. f_equal. apply map_ext_in. intros i Hi. apply in_seq in Hi.
    rewrite surviving_In by (assumption || lia). destruct (mem (nth i out 0) sub); [reflexivity|].
    rewrite nth_indep with (d' := ext 0) by (rewrite map_length; lia). now rewrite map_nth.
  - rewrite flat_map_concat_map.
    rewrite (map_seq_list _ (fun l => if mem l sub then [] else [ext l]) out).
    clear. induction out as [|l o IH]; [reflexivity|]. cbn [map concat filter].
    rewrite IH. destruct (mem l sub); reflexivity.
Qed.

Lemma ind_nth : forall a, a < length s ->
  nth a ind [] = map (fun k => nth a (unravel s k) 0) (seq 0 (size s)).
Proof.
  intros a Ha. unfold ind, unravel_columns.
  exact (nth_map_seq _ (fun a => map (fun k => nth a (unravel s k) 0) (seq 0 (size s))) _ a [] Ha).
Qed.

Let rs := map ext rems.
Let h l := nth (find_pos rems l) (unravel_columns rs) [].

Lemma rem_columns : unravel_columns rs = map h rems.
Proof.
  assert (El : length (unravel_columns rs) = length rems).
  { unfold unravel_columns. rewrite map_length, seq_length. unfold rs. now rewrite map_length. }
  apply nth_ext with (d := []) (d' := h 0); [now rewrite map_length|].
  intros i Hi. rewrite El in Hi. rewrite map_nth. unfold h.
  rewrite find_pos_nth; [reflexivity| |assumption]. now apply NoDup_filter.
Qed.

Lemma fill_eq : forall o rem m n, rem = map h (filter (fun l => negb (mem l sub)) o) ->
  fill_columns (map (fun l => if mem l sub then Some (nth (find_pos sub l) ind []) else None) o
                ++ map Some ind) rem m n =
  map (fun l => if mem l sub then tile_list (nth (find_pos sub l) ind []) m
                else repeat_list (h l) n) o ++ map (fun c => tile_list c m) ind.
Proof.
  induction o as [|l o IH]; intros rem m n Hr; cbn [map app].
  - clear. induction ind as [|c cs IH]; [reflexivity|]. cbn [map fill_columns]. now f_equal.
  - cbn [filter] in Hr. destruct (mem l sub); cbn [negb] in Hr; cbn [fill_columns].
    + f_equal. now apply IH.
    + rewrite Hr. cbn [map hd tl]. f_equal. now apply IH.
Qed.

Definition place_row (a b : nat) : list nat :=
  map (fun l => if mem l sub then nth (find_pos sub l) (unravel s b) 0
                else env_of rems (unravel rs a) l) out ++ unravel s b.

Lemma place_columns_eq :
  place_columns sub out s (map ext out) =
  map (fun l => if mem l sub then tile_list (nth (find_pos sub l) ind []) (size rs)
                else repeat_list (h l) (size s)) out ++ map (fun c => tile_list c (size rs)) ind.
Proof.
  unfold place_columns. fold ind. rewrite remainder_eq. fold rs.
  rewrite out_columns_eq. apply fill_eq. exact rem_columns.
Qed.

Lemma ind_length : length ind = length s.
Proof. unfold ind, unravel_columns. now rewrite map_length, seq_length. Qed.

Lemma ind_In : forall c, In c ind -> length c = size s.
Proof.
  intros c Hc. unfold ind, unravel_columns in Hc. apply in_map_iff in Hc.
  destruct Hc as (a & <- & _). now rewrite map_length, seq_length.
Qed.

Lemma sub_pos : forall l, mem l sub = true -> find_pos sub l < length s.
Proof. intros l H. apply mem_In in H. rewrite Hs, map_length. now apply find_pos_lt. Qed.

Lemma h_eq : forall l, In l rems -> h l = map (fun k => env_of rems (unravel rs k) l) (seq 0 (size rs)).
Proof.
  intros l Hl. unfold h, unravel_columns.
  assert (Hp : find_pos rems l < length rs) by (unfold rs; rewrite map_length; now apply find_pos_lt).
  rewrite (nth_map_seq _ (fun a => map (fun k => nth a (unravel rs k) 0) (seq 0 (size rs))) _ _ [] Hp).
  reflexivity.
Qed.

Lemma in_rems : forall l, In l out -> mem l sub = false -> In l rems.
Proof. intros l H1 H2. unfold rems. apply filter_In. now rewrite H2. Qed.

Lemma place_length : length (place_columns sub out s (map ext out)) = length out + length s.
Proof. rewrite place_columns_eq, app_length, !map_length. now rewrite ind_length. Qed.

Lemma place_uniform : uniform (size rs * size s) (place_columns sub out s (map ext out)).
Proof.
  rewrite place_columns_eq. intros c Hc. apply in_app_or in Hc. destruct Hc as [Hc|Hc].
  - apply in_map_iff in Hc. destruct Hc as (l & <- & Hl). destruct (mem l sub) eqn:E.
    + rewrite tile_length, ind_nth by now apply sub_pos. now rewrite map_length, seq_length.
    + rewrite repeat_list_length, h_eq by now apply in_rems. now rewrite map_length, seq_length.
  - apply in_map_iff in Hc. destruct Hc as (c' & <- & Hc'). rewrite tile_length. now rewrite ind_In.
Qed.

Lemma place_nth : forall a b, a < size rs -> b < size s ->
  map (fun c => nth (a * size s + b) c 0) (place_columns sub out s (map ext out)) = place_row a b.
Proof.
  intros a b Ha Hb. rewrite place_columns_eq, map_app, !map_map. unfold place_row. f_equal.
  - apply map_ext_in. intros l Hl. destruct (mem l sub) eqn:E.
    + pose proof (sub_pos l E) as Hp. rewrite ind_nth by assumption.
      set (c := map (fun k => nth (find_pos sub l) (unravel s k) 0) (seq 0 (size s))).
      assert (Ec : length c = size s) by (unfold c; now rewrite map_length, seq_length).
      rewrite <- Ec at 1. rewrite nth_tile by (assumption || now rewrite Ec).
      unfold c. now rewrite nth_map_seq.
    + rewrite h_eq by now apply in_rems.
      rewrite nth_repeat_list by (try assumption; now rewrite map_length, seq_length).
      now rewrite nth_map_seq.
  - apply nth_ext with (d := 0) (d' := 0).
    + now rewrite map_length, ind_length, unravel_length.
    + intros j Hj. rewrite map_length, ind_length in Hj.
      rewrite nth_indep with (d' := (fun c => nth (a * size s + b) (tile_list c (size rs)) 0) [])
        by now rewrite map_length, ind_length.
      rewrite (map_nth (fun c => nth (a * size s + b) (tile_list c (size rs)) 0)).
      rewrite ind_nth by assumption.
      set (c := map (fun k => nth j (unravel s k) 0) (seq 0 (size s))).
      assert (Ec : length c = size s) by (unfold c; now rewrite map_length, seq_length).
      rewrite <- Ec at 1. rewrite nth_tile by (assumption || now rewrite Ec).
      unfold c. now rewrite nth_map_seq.
Qed.

(** The pattern of one place: the output index and the input index agree on the
    letters the output shares with the place. *)
Lemma place_rows : 0 < length s -> forall r,
  In r (rows_of (place_columns sub out s (map ext out))) <->
  exists o c, inb (map ext out) o /\ inb s c /\ r = o ++ c /\
    forall j, j < length out -> In (nth j out 0) sub ->
      nth j o 0 = nth (find_pos sub (nth j out 0)) c 0.
Proof.
  intros Hpos r.
  assert (Hne : place_columns sub out s (map ext out) <> []).
  { intros E. apply (f_equal (@length _)) in E. rewrite place_length in E. cbn in E. lia. }
  rewrite (rows_of_In _ _ _ Hne place_uniform). split.
  - intros (t & Ht & ->).
    assert (Hsz : size s <> 0) by nia.
    set (a := t / size s). set (b := t mod size s).
    assert (Hb : b < size s) by now apply Nat.mod_upper_bound.
    assert (Ha : a < size rs) by (apply Nat.div_lt_upper_bound; [assumption|lia]).
    assert (Et : t = a * size s + b) by (rewrite (Nat.div_mod t (size s) Hsz); unfold a, b; lia).
    rewrite Et, place_nth by assumption. unfold place_row. eexists _, _. splits; try reflexivity.
    + apply inb_map_ext. intros l Hl. destruct (mem l sub) eqn:E.
      * pose proof (unravel_inb s b Hb) as Hin. apply inb_nth in Hin. destruct Hin as [_ Hin].
        specialize (Hin _ (sub_pos l E)). apply mem_In in E.
        rewrite Hs in Hin at 2. rewrite (nth_indep (map ext sub) 0 (ext 0)) in Hin
          by (rewrite map_length; now apply find_pos_lt).
        rewrite map_nth, nth_find_pos in Hin by assumption. exact Hin.
      * pose proof (in_rems l Hl E) as Hr.
        pose proof (unravel_inb rs a Ha) as Hin. apply inb_nth in Hin. destruct Hin as [_ Hin].
        assert (Hp : find_pos rems l < length rems) by now apply find_pos_lt.
        specialize (Hin (find_pos rems l)). unfold rs in Hin at 1. rewrite map_length in Hin.
        specialize (Hin Hp). unfold rs in Hin at 2.
        rewrite (nth_indep (map ext rems) 0 (ext 0)) in Hin by now rewrite map_length.
        rewrite map_nth, nth_find_pos in Hin by assumption. exact Hin.
    + now apply unravel_inb.
    + intros j Hj Hin.
      match goal with |- nth j (map ?f out) 0 = _ =>
        rewrite nth_indep with (d' := f 0) by now rewrite map_length end.
      rewrite (map_nth (fun l => if mem l sub then nth (find_pos sub l) (unravel s b) 0
                                 else env_of rems (unravel rs a) l)).
      apply mem_In in Hin. now rewrite Hin.
  - intros (o & c & Ho & Hc & -> & Hagree).
    pose proof (inb_length _ _ Ho) as Hlo. rewrite map_length in Hlo.
    set (e := env_of out o).
    assert (Eo : map e out = o) by (now apply map_env_of).
    assert (Hrin : inb rs (map e rems)).
    { unfold rs. apply inb_map_ext. intros l Hl. unfold rems in Hl. apply filter_In in Hl.
      rewrite <- Eo in Ho. exact (proj1 (inb_map_ext ext e out) Ho l (proj1 Hl)). }
    pose proof (ravel_lt _ _ Hrin) as Ha. pose proof (ravel_lt _ _ Hc) as Hb.
    exists (ravel rs (map e rems) * size s + ravel s c). split; [nia|].
    rewrite place_nth by assumption. unfold place_row. rewrite !unravel_ravel by assumption.
    f_equal. rewrite <- Eo at 1.
    apply map_ext_in. intros l Hl. destruct (mem l sub) eqn:E.
    + apply mem_In in E. unfold e, env_of. pose proof (find_pos_lt _ _ Hl) as Hp.
      rewrite (Hagree _ Hp) by now rewrite nth_find_pos. now rewrite nth_find_pos.
    + symmetry. pose proof (in_rems l Hl E) as Hr.
      change (nth (find_pos rems l) (map e rems) 0 = e l).
      rewrite (nth_indep (map e rems) 0 (e 0)) by (rewrite map_length; now apply find_pos_lt).
      rewrite map_nth. now rewrite nth_find_pos.
Qed.
End Place.
