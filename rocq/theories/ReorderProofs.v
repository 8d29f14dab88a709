From Coq Require Import Reals Lra Lia Arith List Bool Permutation.
From Verif Require Import RSum NdArray NdEinsum Component JacSpec CompReorder SpecReorder.
Import ListNotations.
Local Open Scope nat_scope.

(** ---- a component that copies elements: y[o] = x[g o] ------------------ *)

Lemma correct_gather : forall s s' f d (g : nat -> nat) c (meaning : list (nd R) -> nd R -> Prop),
  (forall x, f (Nd s x) = Some (Nd s' (fun o => x (g o)))) ->
  (forall x, d (Nd s x) = Some (Sparse c)) ->
  nnz c = size s' ->
  (forall k, k < size s' -> rows c k = k /\ cols c k = g k /\ vals c k = 1%R) ->
  (forall k, k < size s' -> g k < size s) ->
  (forall x, meaning [Nd s x] (Nd s' (fun o => x (g o)))) ->
  correct (comp1 s s' f d) meaning.
Proof.
  intros s s' f d g c meaning Hf Hd Hn Hc Hg Hm.
  exists (fun v o => v 0 (g o)). split.
  - intros v. cbn. split; [apply Hf|apply Hm].
  - intros v p _ Hp. cbn in Hp. assert (p = 0) by lia. subst p. cbn.
    exists (Sparse c). split; [apply Hd|]. cbn. split.
    + split.
      * intros k Hk. rewrite Hn in Hk. destruct (Hc k Hk) as [-> [-> _]].
        split; [assumption|now apply Hg].
      * intros k k' Hk Hk' E _. rewrite Hn in Hk, Hk'.
        destruct (Hc k Hk) as [E1 _]. destruct (Hc k' Hk') as [E2 _]. congruence.
    + apply coo_linear_jacobian.
      * intros k Hk. rewrite Hn in Hk. destruct (Hc k Hk) as [_ [-> _]]. now apply Hg.
      * intros x' o Ho. rewrite Hn. cbn.
        rewrite (rsum_single _ _ o Ho).
        -- destruct (Hc o Ho) as [E1 [E2 E3]]. rewrite E1, E2, E3, Nat.eqb_refl. lra.
        -- intros k Hk Hne. destruct (Hc k Hk) as [E1 _]. rewrite E1.
           apply Nat.eqb_neq in Hne. now rewrite Hne.
Qed.

(** ---- reshape --------------------------------------------------------- *)

Lemma reshape_correct : forall s s',
  size s = size s' -> correct (reshape_comp s s') reshape_meaning.
Proof.
  intros s s' H. unfold reshape_comp.
  apply correct_gather with (g := fun k => k)
    (c := Coo (size s) (fun k => k) (fun k => k) (fun _ => 1%R)).
  - intros x. unfold reshape_compute. cbn. rewrite H, Nat.eqb_refl. reflexivity.
  - intros _. unfold reshape_partials.
    rewrite (sparse_partials_vec (size s)) by reflexivity. reflexivity.
  - exact H.
  - intros k _. cbn. auto.
  - intros k Hk. now rewrite H.
  - intros x. exists (Nd s x). split; [reflexivity|].
    cbn. intros i j Hi Hj E. unfold get. cbn. now rewrite E.
Qed.

Lemma reshape_rejects : forall s s' ins y,
  size s <> size s' -> ins = [y] -> shp y = s ->
  c_compute (reshape_comp s s') ins = None.
Proof.
  intros s s' ins y H -> Hy. cbn. unfold reshape_compute. rewrite Hy.
  apply Nat.eqb_neq in H. now rewrite H.
Qed.

(** ---- transpose ------------------------------------------------------- *)

Lemma transpose_correct : forall s, correct (transpose_comp s) transpose_meaning.
Proof.
  intros s. unfold transpose_comp.
  apply correct_gather with
    (g := fun k => ravel s (rev (unravel (rev s) k)))
    (c := Coo (size s) (fun k => k) (fun k => ravel s (rev (unravel (rev s) k)))
              (fun _ => 1%R)).
  - reflexivity.
  - intros _. unfold transpose_partials.
    rewrite (sparse_partials_vec (size s)); [reflexivity|reflexivity| |reflexivity].
    cbn. now rewrite size_rev.
  - cbn. unfold transpose_std. now rewrite size_rev.
  - intros k _. cbn. auto.
  - intros k Hk. apply ravel_lt. rewrite <- (rev_involutive s) at 1.
    apply inb_rev. now apply unravel_inb.
  - intros x. exists (Nd s x). split; [reflexivity|]. split; [reflexivity|].
    cbn. intros i Hi. unfold get. cbn. unfold transpose_out_shape, transpose_std.
    rewrite unravel_ravel by (now apply inb_rev). now rewrite rev_involutive.
Qed.

(** ---- reorder_axes ---------------------------------------------------- *)

Lemma split_arrow_letters : forall a b,
  letters a -> split_arrow (a ++ [45; 62] ++ b) = (a, Some b).
Proof.
  induction a as [|c a IH]; intros b H.
  - reflexivity.
  - assert (Hc : c <> 45) by (apply (H c); now left).
    assert (Ha : letters a) by (intros x Hx; apply H; now right).
    specialize (IH b Ha).
    change ((c :: a) ++ [45; 62] ++ b) with (c :: (a ++ [45; 62] ++ b)).
    remember (a ++ [45; 62] ++ b) as l. cbn [split_arrow].
    destruct l as [|d l''].
    + destruct a; discriminate.
    + apply Nat.eqb_neq in Hc. unfold c_minus. rewrite Hc. cbn [andb].
      rewrite IH. reflexivity.
Qed.

Lemma split_arrow_none : forall a, letters a -> split_arrow a = (a, None).
Proof.
  induction a as [|c a IH]; intros H; [reflexivity|].
  assert (Hc : c <> 45) by (apply (H c); now left).
  assert (Ha : letters a) by (intros x Hx; apply H; now right).
  specialize (IH Ha). destruct a as [|d a]; [reflexivity|].
  cbn [split_arrow] in *. apply Nat.eqb_neq in Hc. unfold c_minus at 1.
  rewrite Hc. cbn [andb]. rewrite IH. reflexivity.
Qed.

Lemma map_opt_Some : forall (A B : Type) (f : A -> option B) (g : A -> B) l,
  (forall x, In x l -> f x = Some (g x)) -> map_opt f l = Some (map g l).
Proof.
  induction l as [|x l IH]; intros H; simpl; [reflexivity|].
  rewrite H by (now left). rewrite IH; [reflexivity|]. intros; apply H; now right.
Qed.

Lemma map_opt_inv : forall (A B : Type) (f : A -> option B) l r,
  map_opt f l = Some r ->
  length r = length l /\
  forall i d d', i < length l -> f (nth i l d) = Some (nth i r d').
Proof.
  induction l as [|x l IH]; intros r H; simpl in *.
  - inversion H. split; [reflexivity|]. simpl; intros; lia.
  - destruct (f x) eqn:E; [|discriminate]. destruct (map_opt f l) eqn:E'; [|discriminate].
    inversion H; subst. destruct (IH _ eq_refl) as [H1 H2]. split; [simpl; lia|].
    intros [|i] d d' Hi; simpl; [assumption|]. apply H2. simpl in Hi. lia.
Qed.

Lemma new_axes_spells : forall op ins outs,
  spells op ins outs -> letters ins -> letters outs ->
  (forall c, In c outs -> In c ins) ->
  new_axes op = Some (map (find_pos ins) outs).
Proof.
  intros op ins outs Hop Hi Ho Hin. unfold new_axes. unfold spells in Hop.
  change c_space with 32. rewrite Hop, split_arrow_letters by assumption.
  rewrite split_arrow_none by assumption. cbn [fst].
  apply map_opt_Some. intros c Hc. unfold str_index.
  apply Hin in Hc. apply mem_In in Hc. now rewrite Hc.
Qed.

Lemma find_pos_inj : forall p i j, In i p -> In j p -> find_pos p i = find_pos p j -> i = j.
Proof.
  intros p i j Hi Hj H. rewrite <- (nth_find_pos p i 0 Hi), <- (nth_find_pos p j 0 Hj).
  now rewrite H.
Qed.

Lemma nodupb_NoDup : forall l, nodupb l = true <-> NoDup l.
Proof.
  induction l as [|x l IH]; simpl.
  - split; [constructor|reflexivity].
  - rewrite andb_true_iff, negb_true_iff, mem_not_In, IH. split.
    + intros [H1 H2]. now constructor.
    + intros H. inversion H; subst. tauto.
Qed.

Lemma NoDup_map_inj : forall (f : nat -> nat) l,
  (forall x y, In x l -> In y l -> f x = f y -> x = y) -> NoDup l -> NoDup (map f l).
Proof.
  induction l as [|a l IH]; intros Hi Hl; simpl; constructor; inversion Hl; subst.
  - intros Hin. apply in_map_iff in Hin. destruct Hin as [b [He Hb]].
    assert (b = a) by (apply Hi; [now right|now left|assumption]). now subst.
  - apply IH; [|assumption]. intros x y Hx Hy. apply Hi; now right.
Qed.

Lemma axes_ok_perm : forall ins outs,
  NoDup ins -> Permutation ins outs -> axes_ok (length ins) (map (find_pos ins) outs) = true.
Proof.
  intros ins outs Hn Hp. unfold axes_ok.
  rewrite map_length, (Permutation_length Hp), Nat.eqb_refl. cbn [andb].
  apply andb_true_iff. split.
  - apply forallb_forall. intros i Hi. apply in_map_iff in Hi.
    destruct Hi as [l [<- Hl]]. apply Nat.ltb_lt. rewrite <- (Permutation_length Hp).
    apply find_pos_lt. now apply (Permutation_in _ (Permutation_sym Hp)).
  - apply nodupb_NoDup. apply NoDup_map_inj.
    + intros x y Hx Hy. apply find_pos_inj;
        apply (Permutation_in _ (Permutation_sym Hp)); assumption.
    + now apply (Permutation_NoDup Hp).
Qed.

(** the index map of np.transpose(a, p) in terms of letters *)
Lemma transpose_index : forall ins outs e,
  NoDup ins -> Permutation ins outs ->
  map (fun j => nth (find_pos (map (find_pos ins) outs) j) (map e outs) 0)
      (seq 0 (length ins)) = map e ins.
Proof.
  intros ins outs e Hn Hp.
  apply nth_ext with (d := 0) (d' := 0).
  - now rewrite !map_length, seq_length.
  - intros j Hj. rewrite map_length, seq_length in Hj.
    set (h := fun j0 => nth (find_pos (map (find_pos ins) outs) j0) (map e outs) 0).
    rewrite (nth_indep _ 0 (h 0)) by (now rewrite map_length, seq_length).
    rewrite map_nth. rewrite seq_nth by assumption. cbn [plus].
    rewrite (nth_indep _ 0 (e 0)) by (now rewrite map_length). rewrite map_nth.
    set (l := nth j ins 0).
    assert (Hl : In l ins) by (apply nth_In; assumption).
    assert (Hlo : In l outs) by (now apply (Permutation_in _ Hp)).
    assert (Hpos : find_pos (map (find_pos ins) outs) j = find_pos outs l).
    { assert (Hj' : j = find_pos ins l) by (unfold l; now rewrite find_pos_nth).
      rewrite Hj'. clear - Hp Hl Hlo.
      assert (Hall : forall x, In x outs -> In x ins)
        by (intros; now apply (Permutation_in _ (Permutation_sym Hp))).
      clear Hp. induction outs as [|x outs IH]; simpl in *; [tauto|].
      destruct (Nat.eqb_spec x l) as [->|Hne].
      - now rewrite Nat.eqb_refl.
      - destruct (Nat.eqb_spec (find_pos ins x) (find_pos ins l)) as [E|E].
        + exfalso. apply Hne. apply (find_pos_inj ins); auto.
        + f_equal. apply IH; [destruct Hlo; [congruence|assumption]|auto]. }
    unfold h. rewrite Hpos.
    rewrite (nth_indep _ 0 (e 0)) by (rewrite map_length; now apply find_pos_lt).
    rewrite map_nth. now rewrite nth_find_pos.
Qed.

Lemma inb_letters : forall s ins outs e,
  NoDup ins -> Permutation ins outs -> length ins = length s ->
  (inb (map (fun j => nth j s 0) (map (find_pos ins) outs)) (map e outs) <->
   inb s (map e ins)).
Proof.
  intros s ins outs e Hn Hp Hl. rewrite !inb_nth, !map_length.
  split; intros [_ H]; (split; [try lia|]).
  - intros j Hj.
    set (l := nth j ins 0).
    assert (Hli : In l ins) by (apply nth_In; lia).
    assert (Hlo : In l outs) by (now apply (Permutation_in _ Hp)).
    specialize (H (find_pos outs l) (find_pos_lt _ _ Hlo)).
    rewrite (nth_indep _ 0 (e 0)) in H by (rewrite map_length; now apply find_pos_lt).
    rewrite map_nth, nth_find_pos in H by assumption.
    rewrite map_map in H.
    rewrite (nth_indep (map _ outs) 0 (nth (find_pos ins 0) s 0)) in H
      by (rewrite map_length; now apply find_pos_lt).
    rewrite (map_nth (fun x => nth (find_pos ins x) s 0)) in H.
    rewrite nth_find_pos in H by assumption.
    unfold l in H. rewrite find_pos_nth in H by (assumption || lia).
    rewrite (nth_indep _ 0 (e 0)) by (rewrite map_length; lia).
    now rewrite map_nth.
  - intros j Hj.
    set (l := nth j outs 0).
    assert (Hlo : In l outs) by (now apply nth_In).
    assert (Hli : In l ins) by (now apply (Permutation_in _ (Permutation_sym Hp))).
    pose proof (find_pos_lt _ _ Hli) as Hlt.
    specialize (H (find_pos ins l)). rewrite Hl in Hlt. specialize (H Hlt).
    rewrite (nth_indep _ 0 (e 0)) in H by (rewrite map_length; lia).
    rewrite map_nth, nth_find_pos in H by assumption.
    rewrite (nth_indep _ 0 (e 0)) by (now rewrite map_length).
    rewrite map_nth. fold l. rewrite map_map.
    rewrite (nth_indep (map _ outs) 0 (nth (find_pos ins 0) s 0))
      by (now rewrite map_length).
    rewrite (map_nth (fun x => nth (find_pos ins x) s 0)). exact H.
Qed.

Lemma size_perm : forall s s', Permutation s s' -> size s = size s'.
Proof. induction 1; simpl; try lia; nia. Qed.

Lemma map_nth_seq : forall (s : list nat), map (fun i => nth i s 0) (seq 0 (length s)) = s.
Proof.
  intros s. apply nth_ext with (d := 0) (d' := 0).
  - now rewrite map_length, seq_length.
  - intros i Hi. rewrite map_length, seq_length in Hi.
    rewrite (nth_indep _ 0 (nth 0 s 0)) by (now rewrite map_length, seq_length).
    rewrite (map_nth (fun i => nth i s 0)). now rewrite seq_nth.
Qed.

Lemma map_find_pos_self : forall ins, NoDup ins -> map (find_pos ins) ins = seq 0 (length ins).
Proof.
  intros ins Hn. apply nth_ext with (d := 0) (d' := 0).
  - now rewrite map_length, seq_length.
  - intros i Hi. rewrite map_length in Hi.
    rewrite (nth_indep _ 0 (find_pos ins 0)) by (now rewrite map_length).
    rewrite map_nth, find_pos_nth, seq_nth by assumption. reflexivity.
Qed.

Lemma size_reordered : forall s ins outs,
  NoDup ins -> Permutation ins outs -> length ins = length s ->
  size (map (fun j => nth j s 0) (map (find_pos ins) outs)) = size s.
Proof.
  intros s ins outs Hn Hp Hl. symmetry. apply size_perm.
  rewrite <- (map_nth_seq s) at 1. apply Permutation_map.
  rewrite <- Hl, <- (map_find_pos_self ins Hn). now apply Permutation_map.
Qed.

Lemma reorder_correct : forall s op ins outs,
  spells op ins outs -> letters ins -> NoDup ins -> length ins = length s ->
  Permutation ins outs ->
  exists c, reorder_comp s op = Some c /\ c_ins c = [s] /\
            correct c (letters_meaning ins outs).
Proof.
  intros s op ins outs Hop Hi Hn Hl Hp.
  assert (Ho : letters outs).
  { intros c Hc. apply Hi. now apply (Permutation_in _ (Permutation_sym Hp)). }
  assert (Hax : new_axes op = Some (map (find_pos ins) outs)).
  { apply new_axes_spells; try assumption.
    intros c Hc. now apply (Permutation_in _ (Permutation_sym Hp)). }
  set (p := map (find_pos ins) outs) in *.
  assert (Hok : axes_ok (length s) p = true) by (rewrite <- Hl; now apply axes_ok_perm).
  assert (Hshape : reorder_out_shape s op = Some (map (fun j => nth j s 0) p)).
  { unfold reorder_out_shape, reorder_std. rewrite Hax.
    apply map_opt_Some. intros i Hii. apply nth_error_nth'.
    unfold p in Hii. apply in_map_iff in Hii. destruct Hii as [l [<- Hll]].
    rewrite <- Hl. apply find_pos_lt.
    now apply (Permutation_in _ (Permutation_sym Hp)). }
  assert (Hsz : size (map (fun j => nth j s 0) p) = size s)
    by (now apply size_reordered).
  set (g := fun k => ravel s (map (fun j => nth (find_pos p j)
                       (unravel (map (fun j0 => nth j0 s 0) p) k) 0) (seq 0 (length s)))).
  assert (Hpart : reorder_partials s op =
                  Some (Coo (size s) (fun k => k) g (fun _ => 1%R))).
  { unfold reorder_partials. rewrite Hax, Hok.
    rewrite (sparse_partials_vec (size s)); [reflexivity|reflexivity| |reflexivity].
    cbn. f_equal. exact Hsz. }
  unfold reorder_comp. rewrite Hshape, Hpart.
  eexists. split; [reflexivity|]. split; [reflexivity|].
  (* every in-range output index is the image of an in-range input index *)
  assert (Hget : forall k, k < size (map (fun j => nth j s 0) p) ->
            let idx := unravel (map (fun j0 => nth j0 s 0) p) k in
            map (fun j => nth (find_pos p j) idx 0) (seq 0 (length s))
            = map (env_of outs idx) ins).
  { intros k Hk idx. rewrite <- Hl.
    assert (Hli : length idx = length outs).
    { unfold idx. rewrite unravel_length, map_length. unfold p. now rewrite map_length. }
    pose proof (transpose_index ins outs (env_of outs idx) Hn Hp) as T.
    rewrite map_env_of in T; [exact T|now apply (Permutation_NoDup Hp)|assumption]. }
  apply correct_gather with (g := g) (c := Coo (size s) (fun k => k) g (fun _ => 1%R)).
  - intros x. unfold reorder_compute. rewrite Hax. cbn [shp]. rewrite Hok. reflexivity.
  - reflexivity.
  - cbn. now symmetry.
  - intros k _. cbn. auto.
  - intros k Hk. unfold g. apply ravel_lt. rewrite Hget by assumption.
    apply (inb_letters s ins outs); try assumption.
    rewrite map_env_of.
    + apply unravel_inb. exact Hk.
    + now apply (Permutation_NoDup Hp).
    + rewrite unravel_length, map_length. unfold p. now rewrite map_length.
  - intros x. exists (Nd s x). split; [reflexivity|]. intros e. cbn [shp].
    split; [now apply inb_letters|]. intros Hb.
    unfold get. cbn [shp dat]. unfold g.
    rewrite unravel_ravel.
    + rewrite <- Hl. unfold p. now rewrite transpose_index.
    + now apply inb_letters.
Qed.

Lemma axes_ok_inv : forall r p, axes_ok r p = true ->
  length p = r /\ (forall i, In i p -> i < r) /\ NoDup p.
Proof.
  intros r p H. unfold axes_ok in H. apply andb_true_iff in H. destruct H as [H H3].
  apply andb_true_iff in H. destruct H as [H1 H2].
  apply Nat.eqb_eq in H1. apply nodupb_NoDup in H3. split; [assumption|].
  split; [|assumption]. rewrite forallb_forall in H2.
  intros i Hi. apply Nat.ltb_lt. now apply H2.
Qed.

(** an index string that is not a permutation of the input's letters is rejected *)
Lemma reorder_rejects : forall s op ins outs,
  spells op ins outs -> letters ins -> letters outs -> NoDup ins ->
  length ins = length s -> ~ Permutation ins outs -> reorder_comp s op = None.
Proof.
  intros s op ins outs Hop Hi Ho Hn Hl Hp.
  unfold reorder_comp. destruct (reorder_out_shape s op); [|reflexivity].
  unfold reorder_partials.
  assert (Hax : new_axes op = map_opt (str_index ins) outs).
  { unfold new_axes. unfold spells in Hop. change c_space with 32.
    rewrite Hop, split_arrow_letters by assumption.
    now rewrite split_arrow_none by assumption. }
  rewrite Hax. destruct (map_opt (str_index ins) outs) as [p|] eqn:E; [|reflexivity].
  destruct (axes_ok (length s) p) eqn:Ea; [|reflexivity].
  exfalso. apply Hp. apply map_opt_inv in E. destruct E as [El Ei].
  apply axes_ok_inv in Ea. destruct Ea as [E1 [E2 E3]].
  assert (Hin : forall i, i < length outs ->
             In (nth i outs 0) ins /\ nth i p 0 = find_pos ins (nth i outs 0)).
  { intros i Hii. specialize (Ei i 0 0 Hii). unfold str_index in Ei.
    destruct (mem (nth i outs 0) ins) eqn:Em; [|discriminate].
    apply mem_In in Em. inversion Ei. auto. }
  assert (Hno : NoDup outs).
  { apply NoDup_nth with (d := 0). intros i j Hii Hjj Hij.
    destruct (Hin i Hii) as [_ Hi1]. destruct (Hin j Hjj) as [_ Hj1].
    apply (proj1 (NoDup_nth p 0) E3 i j); [lia|lia|congruence]. }
  apply NoDup_Permutation_bis; [assumption|lia|].
  assert (Hincl : incl outs ins).
  { intros c Hc. apply (In_nth _ _ 0) in Hc. destruct Hc as [i [Hii <-]].
    now apply Hin. }
  intros c Hc.
  assert (Hincl' : incl ins outs).
  { apply NoDup_length_incl; [assumption|lia|assumption]. }
  now apply Hincl'.
Qed.

(** ---- expand ---------------------------------------------------------- *)

Lemma scalar_expand_std : forall s indices e,
  expand_std [1] s indices = Some e -> e = ScalarExpansion.
Proof.
  intros s indices e H. unfold expand_std in H.
  destruct (list_eq_dec Nat.eq_dec [1] [1]) as [_|Hne]; [|congruence].
  destruct indices as [str|]; [|congruence].
  destruct (split_arrow str) as [a [b|]]; [|discriminate].
  destruct (split_arrow b) as [a' [b'|]]; [discriminate|]. congruence.
Qed.

Lemma scalar_expand_correct : forall s indices c,
  expand_comp [1] s indices = Some c -> c_out c = s /\ correct c fill_meaning.
Proof.
  intros s indices c H. unfold expand_comp in H.
  destruct (expand_std [1] s indices) as [e|] eqn:E; [|discriminate].
  apply scalar_expand_std in E. subst e.
  inversion H; subst; clear H. split; [reflexivity|].
  apply correct_gather with (g := fun _ => 0)
    (c := Coo (size s) (fun k => k) (fun _ => 0) (fun _ => 1%R)).
  - reflexivity.
  - intros _. cbn [expansion_partials].
    rewrite (sparse_partials_scalar (size s)) by reflexivity. reflexivity.
  - reflexivity.
  - intros k _. cbn. auto.
  - intros k _. cbn. lia.
  - intros x. exists (Nd [1] x). split; [reflexivity|]. intros j _. reflexivity.
Qed.

Section ArrayExpand.
Variables (s : list nat) (sel : list nat).
Let r := length s.
Let sp := select_positions r sel.
Let rp := remain_positions r sel.

Lemma sp_spec : forall i, In i sp <-> i < r /\ ~ In i sel.
Proof.
  intros i. unfold sp, select_positions. rewrite filter_In, in_seq, negb_true_iff, mem_not_In.
  intuition lia.
Qed.

Lemma rp_spec : forall i, In i rp <-> i < r /\ In i sel.
Proof.
  intros i. unfold rp, remain_positions. rewrite filter_In, in_seq, mem_In. intuition lia.
Qed.

Lemma nth_shape_at : forall t p i, In i p -> nth (find_pos p i) (shape_at t p) 0 = nth i t 0.
Proof.
  intros t p i Hi. unfold shape_at.
  rewrite (nth_indep _ 0 (nth 0 t 0)) by (rewrite map_length; now apply find_pos_lt).
  rewrite (map_nth (fun i => nth i t 0)). now rewrite nth_find_pos.
Qed.

Section Gen.
Context {A : Type}.
Variables (zero one : A) (add mul : A -> A -> A).
Hypothesis add0 : forall x, add zero x = x.
Hypothesis mul1 : forall x, mul x one = x.

Let ops (x : nat -> A) : list (list nat * nd A) :=
  [(sp, Nd (shape_at s sp) x); (rp, Nd (shape_at s rp) (fun _ => one))].

Lemma expand_dims : forall x, map (dim_of (ops x)) (seq 0 r) = s.
Proof.
  intros x. transitivity (map (fun i => nth i s 0) (seq 0 r)); [|apply map_nth_seq].
  apply map_ext_in.
  intros i Hi. apply in_seq in Hi. cbn [dim_of ops shp].
  destruct (mem i sp) eqn:E.
  - apply mem_In in E. now apply nth_shape_at.
  - apply mem_not_In in E. rewrite sp_spec in E.
    assert (Hrp : In i rp).
    { apply rp_spec. split; [lia|]. destruct (in_dec Nat.eq_dec i sel); [assumption|tauto]. }
    assert (Em : mem i rp = true) by now apply mem_In.
    rewrite Em. now apply nth_shape_at.
Qed.

Lemma env_of_seq : forall n idx i, i < n -> length idx = n -> env_of (seq 0 n) idx i = nth i idx 0.
Proof.
  intros n idx i Hi Hl. unfold env_of. f_equal.
  pose proof (find_pos_nth (seq 0 n) i 0 (seq_NoDup n 0)) as H.
  rewrite seq_length, seq_nth in H by assumption. now apply H.
Qed.

Lemma expand_einsum : forall x idx, inb s idx ->
  get (np_einsum zero one add mul (ops x) (seq 0 r)) idx =
  x (ravel (shape_at s sp) (map (fun i => nth i idx 0) sp)).
Proof.
  intros x idx Hb.
  rewrite einsum_plain; [|assumption|apply seq_NoDup| |].
  - unfold term. cbn [map fst snd ops gprod]. unfold get at 2. cbn [dat].
    rewrite !mul1. unfold get. cbn [dat shp]. f_equal. f_equal.
    apply map_ext_in. intros i Hi. apply sp_spec in Hi. apply env_of_seq; [tauto|].
    now apply inb_length.
  - intros l Hl. unfold in_labels in Hl. cbn in Hl. rewrite app_nil_r in Hl.
    apply in_seq. apply in_app_or in Hl. destruct Hl as [Hl|Hl].
    + apply sp_spec in Hl. lia.
    + apply rp_spec in Hl. lia.
  - now rewrite expand_dims.
Qed.

Lemma expand_einsum_shape : forall x, shp (np_einsum zero one add mul (ops x) (seq 0 r)) = s.
Proof. intros x. cbn. apply (expand_dims x). Qed.
End Gen.

Lemma sel_inb : forall idx, inb s idx -> inb (shape_at s sp) (map (fun i => nth i idx 0) sp).
Proof.
  intros idx H. apply inb_nth in H. destruct H as [Hl H]. fold r in Hl, H.
  apply inb_nth. unfold shape_at. rewrite !map_length. split; [reflexivity|].
  intros j Hj.
  rewrite (nth_indep _ 0 (nth 0 idx 0)) by (now rewrite map_length).
  rewrite (map_nth (fun i => nth i idx 0)).
  rewrite (nth_indep (map _ sp) 0 (nth 0 s 0)) by (now rewrite map_length).
  rewrite (map_nth (fun i => nth i s 0)).
  apply H. apply sp_spec. now apply nth_In.
Qed.
End ArrayExpand.

(** what array expansion does, for any choice of new axes: the output at [idx]
    is the input at the entries of [idx] whose positions are not new axes *)
Lemma array_expand_correct : forall s sel d,
  decompose_shape_tuple s sel = Some d ->
  correct (comp1 (d_in_shape d) (d_out_shape d)
             (fun x => Some (expansion_compute s (ArrayExpansion d) x))
             (fun _ => as_sparse (expansion_partials s (ArrayExpansion d))))
          (fun ins y => exists x, ins = [x] /\ shp y = s /\
             forall idx, inb s idx ->
               let idx' := map (fun i => nth i idx 0) (select_positions (length s) sel) in
               inb (shp x) idx' /\ get y idx = get x idx').
Proof.
  intros s sel d Hd. unfold decompose_shape_tuple in Hd.
  destruct (length s <=? 10); [|discriminate]. inversion Hd; subst; clear Hd.
  cbn [d_in_shape d_out_shape].
  set (sp := select_positions (length s) sel).
  set (g := fun k => ravel (shape_at s sp) (map (fun i => nth i (unravel s k) 0) sp)).
  (* values *)
  assert (Hval : forall x k, k < size s ->
     dat (r_einsum [(sp, Nd (shape_at s sp) x);
                    (remain_positions (length s) sel,
                     Nd (shape_at s (remain_positions (length s) sel)) (fun _ => 1%R))]
                   (seq 0 (length s))) k = x (g k)).
  { intros x k Hk.
    pose proof (expand_einsum s sel 0%R 1%R Rplus Rmult Rplus_0_l Rmult_1_r x
                  (unravel s k) (unravel_inb s k Hk)) as H.
    unfold get in H. rewrite expand_einsum_shape in H.
    rewrite ravel_unravel in H by assumption. exact H. }
  (* columns *)
  assert (Hcol : forall k, k < size s ->
     dat (n_einsum [(sp, get_array_indices (shape_at s sp));
                    (remain_positions (length s) sel,
                     Nd (shape_at s (remain_positions (length s) sel)) (fun _ => 1))]
                   (seq 0 (length s))) k = g k).
  { intros k Hk.
    pose proof (expand_einsum s sel 0 1 Nat.add Nat.mul Nat.add_0_l Nat.mul_1_r
                  (fun i => i) (unravel s k) (unravel_inb s k Hk)) as H.
    unfold get in H. rewrite expand_einsum_shape in H.
    rewrite ravel_unravel in H by assumption. exact H. }
  set (F := fun (x : nat -> R) (k : nat) =>
     dat (r_einsum [(sp, Nd (shape_at s sp) x);
                    (remain_positions (length s) sel,
                     Nd (shape_at s (remain_positions (length s) sel)) (fun _ => 1%R))]
                   (seq 0 (length s))) k).
  assert (Hshape : forall x, r_einsum [(sp, Nd (shape_at s sp) x);
                    (remain_positions (length s) sel,
                     Nd (shape_at s (remain_positions (length s) sel)) (fun _ => 1%R))]
                   (seq 0 (length s)) = Nd s (F x)).
  { intros x.
    pose proof (expand_einsum_shape s sel 0%R 1%R Rplus Rmult x) as H.
    change (shp (r_einsum [(sp, Nd (shape_at s sp) x);
                    (remain_positions (length s) sel,
                     Nd (shape_at s (remain_positions (length s) sel)) (fun _ => 1%R))]
                   (seq 0 (length s))) = s) in H.
    unfold F. destruct (r_einsum _ _) as [s0 d0]. cbn in H. subst s0. reflexivity. }
  exists (fun v => F (v 0)). split.
  - intros v. cbn [c_ins c_out c_compute comp1 inputs_of map seq length nth].
    cbn [expansion_compute d_in d_ones d_ones_shape d_out].
    split; [f_equal; apply Hshape|].
    exists (Nd (shape_at s sp) (v 0)). split; [reflexivity|]. split; [reflexivity|].
    intros idx Hb. split.
    + cbn [shp]. now apply sel_inb.
    + unfold get. cbn [shp dat]. unfold F. rewrite Hval by (now apply ravel_lt).
      unfold g. now rewrite unravel_ravel.
  - intros v p _ Hp. cbn in Hp. assert (p = 0) by lia. subst p.
    cbn [c_ins c_out c_partials comp1 inputs_of map seq length nth].
    cbn [expansion_partials d_in d_ones d_ones_shape d_out d_in_shape d_out_shape].
    rewrite (sparse_partials_scalar (size s)); [|reflexivity|].
    2:{ cbn. f_equal. f_equal.
        apply (expand_dims s sel 1 (fun i => i)). }
    eexists. split; [reflexivity|]. cbn [exact_jac dat np_flatten].
    apply exact_sparse_linear.
    + split; cbn [nnz rows cols].
      * intros k Hk. split; [exact Hk|]. rewrite Hcol by assumption.
        unfold g. apply ravel_lt, sel_inb, unravel_inb. exact Hk.
      * intros k k' _ _ E _. exact E.
    + intros x' o Ho. cbn [nnz rows cols vals]. change (set_op v 0 x' 0) with x'.
      unfold F. rewrite Hval by assumption.
      rewrite (rsum_single _ _ o Ho).
      * rewrite Hcol by assumption. cbn. rewrite Nat.eqb_refl. lra.
      * intros k _ Hne. cbn. apply Nat.eqb_neq in Hne. now rewrite Hne.
Qed.

Lemma correct_weaken : forall dom c (m m' : list (nd R) -> nd R -> Prop),
  (forall v y, shp y = c_out c -> m (inputs_of (c_ins c) v) y -> m' (inputs_of (c_ins c) v) y) ->
  correct_on dom c m -> correct_on dom c m'.
Proof.
  intros dom c m m' H [F [H1 H2]]. exists F. split; [|assumption].
  intros v. destruct (H1 v) as [E M]. split; [assumption|]. apply H; [reflexivity|assumption].
Qed.

Lemma expand_std_array : forall xs s ins outs,
  letters ins -> letters outs -> xs <> [1] ->
  length s <= 10 ->
  shape_at s (select_positions (length s) (expand_positions ins outs)) = xs ->
  expand_std xs s (Some (ins ++ [45; 62] ++ outs)) =
  option_map ArrayExpansion (decompose_shape_tuple s (expand_positions ins outs)).
Proof.
  intros xs s ins outs Hi Ho Hx Hs Hsh. unfold expand_std.
  rewrite split_arrow_letters, split_arrow_none by assumption.
  destruct (list_eq_dec Nat.eq_dec xs [1]); [contradiction|].
  unfold decompose_shape_tuple.
  assert (E : length s <=? 10 = true) by (now apply Nat.leb_le).
  rewrite E. cbn [d_in_shape option_map].
  destruct (list_eq_dec Nat.eq_dec _ xs); [reflexivity|contradiction].
Qed.

(** positions that are not new axes, as letters *)
Lemma selected_letters : forall ins outs,
  map (fun i => nth i outs 0)
      (select_positions (length outs) (expand_positions ins outs)) =
  filter (fun l => mem l ins) outs.
Proof.
  intros ins outs. unfold select_positions.
  assert (H : filter (fun i => negb (mem i (expand_positions ins outs))) (seq 0 (length outs))
            = filter (fun i => mem (nth i outs 0) ins) (seq 0 (length outs))).
  { apply filter_ext_in. intros i Hi.
    destruct (mem (nth i outs 0) ins) eqn:E.
    - apply negb_true_iff, mem_not_In. intros Hin. unfold expand_positions in Hin.
      apply filter_In in Hin. destruct Hin as [_ Hin]. rewrite E in Hin. discriminate.
    - apply negb_false_iff, mem_In. unfold expand_positions. apply filter_In.
      rewrite E. auto. }
  rewrite H. clear H.
  transitivity (filter (fun l => mem l ins) (map (fun i => nth i outs 0) (seq 0 (length outs))));
    [|now rewrite map_nth_seq].
  generalize (seq 0 (length outs)). intros l. induction l as [|i l IH]; simpl; [reflexivity|].
  destruct (mem (nth i outs 0) ins); simpl; now rewrite IH.
Qed.

Lemma expand_letters_correct : forall xs s ins outs,
  letters ins -> letters outs -> xs <> [1] -> length s <= 10 ->
  length outs = length s -> NoDup outs ->
  filter (fun l => mem l ins) outs = ins ->
  shape_at s (map (find_pos outs) ins) = xs ->
  exists c, expand_comp xs s (Some (ins ++ [45; 62] ++ outs)) = Some c /\
            c_ins c = [xs] /\ c_out c = s /\ correct c (expand_meaning ins outs).
Proof.
  intros xs s ins outs Hi Ho Hx Hs Hl Hn Hf Hxs.
  set (sel := expand_positions ins outs).
  assert (Hsp : select_positions (length s) sel = map (find_pos outs) ins).
  { rewrite <- Hl.
    transitivity (map (find_pos outs) (filter (fun l => mem l ins) outs));
      [|now rewrite Hf].
    unfold sel. rewrite <- selected_letters, map_map.
    rewrite <- (map_id (select_positions _ _)) at 1.
    apply map_ext_in. intros i Hin.
    unfold select_positions in Hin. apply filter_In in Hin. destruct Hin as [Hin _].
    apply in_seq in Hin. symmetry. apply find_pos_nth; [assumption|lia]. }
  unfold expand_comp. rewrite expand_std_array; try assumption.
  2:{ fold sel. rewrite Hsp. exact Hxs. }
  fold sel. destruct (decompose_shape_tuple s sel) as [d|] eqn:Ed.
  2:{ unfold decompose_shape_tuple in Ed.
      assert (E : length s <=? 10 = true) by (now apply Nat.leb_le).
      rewrite E in Ed. discriminate. }
  cbn [option_map]. eexists. split; [reflexivity|].
  pose proof (array_expand_correct s sel d Ed) as Hc.
  assert (Hd1 : d_in_shape d = xs /\ d_out_shape d = s).
  { unfold decompose_shape_tuple in Ed. destruct (length s <=? 10); [|discriminate].
    inversion Ed; subst. cbn. rewrite Hsp. auto. }
  destruct Hd1 as [Hd1 Hd2].
  split; [reflexivity|]. split; [exact Hd2|].
  rewrite Hd1 in Hc.
  eapply correct_weaken; [|exact Hc].
  intros v y _ [x [Hin [Hy Hall]]]. exists x. split; [exact Hin|].
  intros e Hb. rewrite Hy in Hb. specialize (Hall _ Hb). cbn zeta in Hall.
  rewrite Hsp in Hall.
  assert (Hmap : map (fun i => nth i (map e outs) 0) (map (find_pos outs) ins) = map e ins).
  { rewrite map_map. apply map_ext_in. intros l Hl'.
    assert (Hlo : In l outs).
    { rewrite <- Hf in Hl'. apply filter_In in Hl'. tauto. }
    rewrite (nth_indep _ 0 (e 0)) by (rewrite map_length; now apply find_pos_lt).
    rewrite map_nth. now rewrite nth_find_pos. }
  rewrite Hmap in Hall. exact Hall.
Qed.

(** what expand does whatever the order of the letters: the input's letters are
    always taken in the order of the OUTPUT string *)
Lemma expand_actual : forall xs s ins outs c,
  letters ins -> letters outs -> xs <> [1] -> length outs = length s -> NoDup outs ->
  expand_comp xs s (Some (ins ++ [45; 62] ++ outs)) = Some c ->
  correct c (expand_meaning (filter (fun l => mem l ins) outs) outs).
Proof.
  intros xs s ins outs c Hi Ho Hx Hl Hn Hc.
  set (sel := expand_positions ins outs).
  unfold expand_comp, expand_std in Hc.
  rewrite split_arrow_letters, split_arrow_none in Hc by assumption.
  destruct (list_eq_dec Nat.eq_dec xs [1]); [contradiction|].
  fold sel in Hc. destruct (decompose_shape_tuple s sel) as [d|] eqn:Ed; [|discriminate].
  destruct (list_eq_dec Nat.eq_dec (d_in_shape d) xs) as [Hd|]; [|discriminate].
  inversion Hc; subst c; clear Hc.
  pose proof (array_expand_correct s sel d Ed) as H. rewrite Hd in H.
  eapply correct_weaken; [|exact H].
  intros v y _ [x [Hin [Hy Hall]]]. exists x. split; [exact Hin|].
  intros e Hb. rewrite Hy in Hb. specialize (Hall _ Hb). cbn zeta in Hall.
  assert (Hmap : map (fun i => nth i (map e outs) 0) (select_positions (length s) sel)
                 = map e (filter (fun l => mem l ins) outs)).
  { rewrite <- Hl. rewrite <- selected_letters, map_map. apply map_ext_in.
    intros i Hin'. unfold select_positions in Hin'. apply filter_In in Hin'.
    destruct Hin' as [Hin' _]. apply in_seq in Hin'.
    rewrite (nth_indep _ 0 (e 0)) by (rewrite map_length; lia).
    now rewrite map_nth. }
  rewrite Hmap in Hall. exact Hall.
Qed.

(** so the index string is misread as soon as the orders differ *)
Lemma expand_permuted_wrong : forall xs s ins outs c,
  letters ins -> letters outs -> xs <> [1] -> length outs = length s ->
  NoDup outs -> NoDup ins -> incl ins outs ->
  (forall n, In n s -> 2 <= n) ->
  ins <> filter (fun l => mem l ins) outs ->
  expand_comp xs s (Some (ins ++ [45; 62] ++ outs)) = Some c ->
  ~ correct c (expand_meaning ins outs).
Proof.
  intros xs s ins outs c Hi Ho Hx Hl Hn Hni Hincl H2 Hne Hc Hbad.
  pose proof (expand_actual xs s ins outs c Hi Ho Hx Hl Hn Hc) as Hgood.
  set (fl := filter (fun l => mem l ins) outs) in *.
  assert (Hfl : length fl = length ins).
  { apply Nat.le_antisymm; apply NoDup_incl_length.
    - now apply NoDup_filter.
    - intros l Hin. apply filter_In in Hin. now apply mem_In.
    - assumption.
    - intros l Hin. apply filter_In. split; [now apply Hincl|now apply mem_In]. }
  (* a position where the two orders differ *)
  assert (Hj : exists j, j < length ins /\ nth j ins 0 <> nth j fl 0).
  { destruct (forallb (fun j => Nat.eqb (nth j ins 0) (nth j fl 0)) (seq 0 (length ins))) eqn:E.
    - exfalso. apply Hne. apply nth_ext with (d := 0) (d' := 0); [now symmetry|].
      intros j Hj. rewrite forallb_forall in E. apply Nat.eqb_eq, E, in_seq. lia.
    - assert (Hex : existsb (fun j => negb (Nat.eqb (nth j ins 0) (nth j fl 0)))
                            (seq 0 (length ins)) = true).
      { clear - E. induction (seq 0 (length ins)) as [|a l IH]; simpl in *; [discriminate|].
        destruct (Nat.eqb (nth a ins 0) (nth a fl 0)); simpl in *; [now apply IH|reflexivity]. }
      apply existsb_exists in Hex. destruct Hex as [j [Hin Hb]].
      apply in_seq in Hin. apply negb_true_iff, Nat.eqb_neq in Hb. exists j. split; [lia|assumption]. }
  destruct Hj as [j [Hj Hdiff]].
  set (e := fun l => if Nat.eqb l (nth j ins 0) then 1 else 0).
  destruct Hbad as [F1 [V1 _]]. destruct Hgood as [F2 [V2 _]].
  set (v := fun (_ k : nat) => INR k).
  destruct (V1 v) as [E1 [x1 [Hx1 M1]]]. destruct (V2 v) as [E2 [x2 [Hx2 M2]]].
  cbn zeta in *. rewrite E1 in E2. injection E2 as E2.
  rewrite Hx1 in Hx2. injection Hx2 as Hx2. subst x2.
  (* the shape of the output *)
  assert (Hs : c_ins c = [xs] /\ c_out c = s).
  { unfold expand_comp in Hc. destruct (expand_std xs s _) as [e0|] eqn:Es; [|discriminate].
    inversion Hc; subst c. cbn. split; [reflexivity|].
    unfold expand_std in Es. rewrite split_arrow_letters, split_arrow_none in Es by assumption.
    destruct (list_eq_dec Nat.eq_dec xs [1]); [contradiction|].
    unfold decompose_shape_tuple in Es. destruct (length s <=? 10); [|discriminate].
    cbn [d_in_shape] in Es.
    destruct (list_eq_dec Nat.eq_dec _ xs); [|discriminate]. inversion Es. reflexivity. }
  destruct Hs as [Hci Hco].
  assert (Hb : inb s (map e outs)).
  { apply inb_nth. rewrite map_length. split; [assumption|]. intros k Hk.
    apply Nat.lt_le_trans with 2; [|apply H2, nth_In; assumption].
    rewrite (nth_indep _ 0 (e 0)) by (rewrite map_length; lia).
    rewrite map_nth. unfold e. destruct (Nat.eqb _ _); lia. }
  cbn [shp] in M1, M2. rewrite Hco in M1, M2.
  destruct (M1 e Hb) as [B1 G1]. destruct (M2 e Hb) as [B2 G2].
  assert (Hvv : dat x1 = fun k => INR k).
  { rewrite Hci in Hx1. cbn in Hx1. injection Hx1 as Hx1. subst x1. reflexivity. }
  rewrite <- E2 in G2. rewrite G1 in G2. unfold get in G2. rewrite Hvv in G2.
  apply INR_eq in G2. apply ravel_inj in G2; [|assumption|assumption].
  assert (Hnth : nth j (map e ins) (e 0) = nth j (map e fl) (e 0)) by (now rewrite G2).
  rewrite !map_nth in Hnth.
  unfold e in Hnth. rewrite Nat.eqb_refl in Hnth.
  destruct (Nat.eqb_spec (nth j fl 0) (nth j ins 0)); [congruence|discriminate].
Qed.

(** ---- concrete cases -------------------------------------------------- *)
From Coq Require Import String.
Import ListNotations.
Local Open Scope nat_scope.

Lemma letters_check : forall l,
  forallb (fun c => negb (Nat.eqb c 32) && negb (Nat.eqb c 44) && negb (Nat.eqb c 45)
                    && negb (Nat.eqb c 62)) l = true -> letters l.
Proof.
  intros l H c Hc. rewrite forallb_forall in H. specialize (H c Hc).
  rewrite !andb_true_iff, !negb_true_iff, !Nat.eqb_neq in H. tauto.
Qed.

Example expand_permuted_accepted :
  exists c, expand_comp [2; 3] [3; 2; 2] (Some (codes "ij->jik"%string)) = None /\
            expand_comp [3; 2] [3; 2; 2] (Some (codes "ij->jik"%string)) = Some c.
Proof. eexists. split; vm_compute; reflexivity. Qed.

Lemma expand_permuted_instance :
  exists c, expand_comp [3; 2] [3; 2; 2] (Some (codes "ij->jik"%string)) = Some c /\
            ~ correct c (expand_meaning (codes "ij"%string) (codes "jik"%string)).
Proof.
  eexists. split; [vm_compute; reflexivity|].
  eapply (expand_permuted_wrong [3; 2] [3; 2; 2] (codes "ij"%string) (codes "jik"%string)).
  - now apply letters_check.
  - now apply letters_check.
  - discriminate.
  - reflexivity.
  - apply nodupb_NoDup. reflexivity.
  - apply nodupb_NoDup. reflexivity.
  - intros l Hl. cbn in *. tauto.
  - intros n Hn. cbn in Hn. intuition lia.
  - vm_compute. discriminate.
  - vm_compute. reflexivity.
Qed.

Example expand_instance :
  letters (codes "ij"%string) /\ letters (codes "iajb"%string) /\ [3; 2] <> [1] /\
  NoDup (codes "iajb"%string) /\
  filter (fun l => mem l (codes "ij"%string)) (codes "iajb"%string) = codes "ij"%string /\
  shape_at [3; 4; 2; 5] (map (find_pos (codes "iajb"%string)) (codes "ij"%string)) = [3; 2].
Proof.
  split; [now apply letters_check|]. split; [now apply letters_check|].
  split; [discriminate|]. split; [apply nodupb_NoDup; reflexivity|].
  split; reflexivity.
Qed.

Example reorder_instance :
  spells (codes "ijk -> kij"%string) (codes "ijk"%string) (codes "kij"%string) /\
  letters (codes "ijk"%string) /\ NoDup (codes "ijk"%string) /\
  Permutation (codes "ijk"%string) (codes "kij"%string) /\
  ~ Permutation (codes "ijk"%string) (codes "ki"%string).
Proof.
  split; [reflexivity|]. split; [now apply letters_check|].
  split; [apply nodupb_NoDup; reflexivity|]. split.
  - cbn. apply perm_trans with [105; 107; 106].
    + apply perm_skip, perm_swap.
    + apply perm_swap.
  - intros H. apply Permutation_length in H. discriminate.
Qed.
