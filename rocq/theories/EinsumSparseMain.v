(** Einsum with sparse derivatives: which operand lists work. *)
From Coq Require Import String Reals Lra Lia Arith List Bool.
From Verif Require Import PyBase RSum NdArray NdEinsum Component JacSpec CompReorder CompEinsum
  SpecEinsum EinsumStrings EinsumCalc EinsumProofs CompEinsumSparse EinsumPattern EinsumSparse EinsumNew.
Import ListNotations.
Local Open Scope nat_scope.

Lemma indices_length : forall pats, length (indices_list pats) <= length pats.
Proof.
  induction pats as [|[l|] pats IH]; unfold indices_list in *; cbn [flat_map app length] in *; lia.
Qed.

Lemma indices_all : forall pats, length pats <= length (indices_list pats) ->
  forall q, q < length pats -> nth q pats None <> None.
Proof.
  induction pats as [|x pats IH]; intros Hl q Hq; [cbn in Hq; lia|].
  pose proof (indices_length pats) as Hle. unfold indices_list in *. cbn [flat_map length] in *.
  destruct x as [l|]; cbn [app length] in Hl; [|lia].
  destruct q as [|q]; cbn [nth]; [discriminate|]. apply IH; lia.
Qed.

Lemma indices_gap : forall pats,
  (forall q, q < length pats -> nth q pats None <> None -> q < length (indices_list pats)) ->
  forall q q', q < q' -> q' < length pats -> nth q' pats None <> None -> nth q pats None <> None.
Proof.
  induction pats as [|x pats IH] using rev_ind; intros H q q' Hlt Hq' Hs; [cbn in Hq'; lia|].
  rewrite app_length in *. cbn [length] in *.
  assert (Ei : indices_list (pats ++ [x]) = indices_list pats ++ match x with Some l => [l] | None => [] end).
  { unfold indices_list. rewrite flat_map_app. cbn. now rewrite app_nil_r. }
  destruct x as [l|].
  - specialize (H (length pats) ltac:(lia)).
    rewrite app_nth2, Nat.sub_diag in H by lia. specialize (H ltac:(discriminate)).
    rewrite Ei, app_length in H. cbn [length] in H.
    rewrite app_nth1 by lia. apply indices_all; lia.
  - assert (Hq2 : q' < length pats).
    { destruct (Nat.eq_dec q' (length pats)) as [->|]; [|lia].
      rewrite app_nth2, Nat.sub_diag in Hs by lia. now cbn in Hs. }
    rewrite app_nth1 in * by lia. apply (IH) with (q' := q'); try assumption.
    intros k Hk Hn. specialize (H k ltac:(lia)). rewrite app_nth1 in H by lia.
    rewrite Ei, app_nil_r in H. auto.
Qed.

Lemma map_opt_nth : forall (A B : Type) (f : A -> option B) l ys i x,
  map_opt f l = Some ys -> nth_error l i = Some x -> nth_error ys i = f x.
Proof.
  induction l as [|a l IH]; intros ys i x E Hi; [destruct i; discriminate|].
  cbn [map_opt] in E. destruct (f a) as [y|] eqn:Ea; [|discriminate].
  destruct (map_opt f l) as [zs|]; [|discriminate]. inversion E; subst.
  destruct i as [|i]; cbn in *; [inversion Hi; subst; now rewrite Ea|eauto].
Qed.

Lemma map_opt_length : forall (A B : Type) (f : A -> option B) l ys,
  map_opt f l = Some ys -> length ys = length l.
Proof.
  induction l as [|a l IH]; intros ys E; cbn [map_opt] in E; [now inversion E|].
  destruct (f a); [|discriminate]. destruct (map_opt f l); [|discriminate].
  inversion E; subst. cbn. f_equal. auto.
Qed.

Lemma keeps_dec : forall subs out names m, length subs = length names ->
  (forallb (fun i => match surviving (nth i (subs ++ [out]) []) out with [] => false | _ => true end)
          (locations names m) = true <-> keeps subs out names m).
Proof.
  intros subs out names m Hlen. unfold keeps. rewrite forallb_forall.
  assert (Hloc : forall i, In i (locations names m) <-> i < length names /\ nth i names 0 = m).
  { intros i. unfold locations. rewrite filter_In, in_seq, Nat.eqb_eq.
    split; intros [H1 H2]; split; auto; lia. }
  split.
  - intros H j Hj E. specialize (H j (proj2 (Hloc _) (conj Hj E))).
    rewrite app_nth1 in H by (now rewrite Hlen).
    destruct (surviving (nth j subs []) out) as [|k l] eqn:Es; [discriminate|].
    assert (Hk : In k (surviving (nth j subs []) out)) by (rewrite Es; now left).
    unfold surviving in Hk. apply in_flat_map in Hk. destruct Hk as (x & Hx & Hm).
    destruct (mem x out) eqn:Em; [|destruct Hm]. apply mem_In in Em. eauto.
  - intros H i Hi. apply Hloc in Hi. destruct Hi as [Hi E].
    rewrite app_nth1 by (now rewrite Hlen).
    destruct (surviving (nth i subs []) out) eqn:Es; [|reflexivity].
    rewrite surviving_nil in Es. destruct (H i Hi E) as (l & H1 & H2). exfalso. eapply Es; eauto.
Qed.

(** The partials come only when no operand that keeps its pattern follows one that
    does not. *)
Theorem sparse_order_needed : forall op subs out names shapes c ins p j,
  np_subscripts op = Some (subs, out) -> length subs = length names ->
  einsum_sparse_comp op names shapes = Some c ->
  c_partials c ins p = Some j ->
  forall q q', q < q' -> q' < length (dedup names) ->
  keeps subs out names (nth q' (dedup names) 0) -> keeps subs out names (nth q (dedup names) 0).
Proof.
  intros op subs out names shapes c ins p j Hparse Hlen Ec Hj q q' Hlt Hq' Hk.
  unfold einsum_sparse_comp in Ec.
  destruct (compute_einsum_shape _ _) as [osh|]; [|discriminate].
  destruct (map_opt (sparse_pattern _ _ _ _) _) as [pats|] eqn:Ep; [|discriminate].
  inversion Ec; subst c. clear Ec. cbn [c_partials] in Hj.
  destruct (map_opt (sparse_partial _ _ _ _ _ _) _) as [js|] eqn:Es; [|discriminate].
  unfold distinct in *.
  assert (Hseq : forall k, k < length (dedup names) -> nth_error (seq 0 (length (dedup names))) k = Some k).
  { intros k Hlk. rewrite (nth_error_nth' _ 0) by now rewrite seq_length. now rewrite seq_nth. }
  pose proof (map_opt_length _ _ _ _ _ Ep) as Hlp. rewrite seq_length in Hlp.
  assert (Hpat : forall k, k < length (dedup names) ->
            (nth k pats None <> None <-> keeps subs out names (nth k (dedup names) 0))).
  { intros k Hlk. pose proof (map_opt_nth _ _ _ _ _ k k Ep (Hseq k Hlk)) as E.
    rewrite <- keeps_dec by assumption. unfold sparse_pattern in E.
    rewrite (tolist_is_parse _ _ _ Hparse), last_last in E. unfold distinct in E.
    destruct (forallb _ (locations names (nth k (dedup names) 0))).
    - split; [reflexivity|]. intros _.
      destruct (_ && _); [destruct (forallb _ _)|].
      + rewrite (nth_error_nth pats k None E). discriminate.
      + exfalso. apply nth_error_None in E. lia.
      + exfalso. apply nth_error_None in E. lia.
    - rewrite (nth_error_nth pats k None E). split; congruence. }
  apply Hpat; [lia|]. apply indices_gap with (q' := q'); try assumption; try lia; [|now apply Hpat].
  intros k Hlk Hs. rewrite Hlp in Hlk.
  pose proof (map_opt_nth _ _ _ _ _ k k Es (Hseq k Hlk)) as E.
  pose proof (map_opt_length _ _ _ _ _ Es) as Hls. rewrite seq_length in Hls.
  assert (Hne : nth_error js k <> None) by (apply nth_error_Some; lia).
  rewrite E in Hne. unfold sparse_partial in Hne.
  destruct (full_partial _ _ _ _ _); [|congruence].
  destruct (nth k pats None); [|congruence].
  destruct (nth_error (indices_list pats) k) eqn:En; [|congruence].
  apply nth_error_Some. congruence.
Qed.

Theorem sparse_order_raises : forall op subs out l1 a l2 b l3 shapes c ins p,
  np_subscripts op = Some (subs, out) -> length subs = length (l1 ++ a :: l2 ++ b :: l3) ->
  ~ In b (l1 ++ a :: l2) ->
  ~ keeps subs out (l1 ++ a :: l2 ++ b :: l3) a -> keeps subs out (l1 ++ a :: l2 ++ b :: l3) b ->
  einsum_sparse_comp op (l1 ++ a :: l2 ++ b :: l3) shapes = Some c ->
  c_partials c ins p = None.
Proof.
  intros op subs out l1 a l2 b l3 shapes c ins p Hparse Hlen Hb Ha Hk Ec.
  destruct (c_partials c ins p) as [j|] eqn:Ej; [|reflexivity]. exfalso. apply Ha.
  set (names := l1 ++ a :: l2 ++ b :: l3) in *.
  assert (En : dedup names = dedup (l1 ++ a :: l2) ++
                 filter (fun x => negb (mem x (l1 ++ a :: l2))) (dedup (b :: l3))).
  { unfold names. change (a :: l2 ++ b :: l3) with ((a :: l2) ++ b :: l3). rewrite app_assoc. apply dedup_app. }
  assert (Hia : In a (dedup (l1 ++ a :: l2))) by (apply dedup_In, in_or_app; right; now left).
  assert (Hna : In a (dedup names)) by (rewrite En; apply in_or_app; now left).
  assert (Hnb : In b (dedup names)).
  { apply dedup_In. unfold names. apply in_or_app. right. right. apply in_or_app. right. now left. }
  rewrite <- (nth_find_pos (dedup names) a 0 Hna).
  apply (sparse_order_needed op subs out names shapes c ins p j Hparse Hlen Ec Ej _
           (find_pos (dedup names) b)).
  - rewrite En. rewrite find_pos_app_l by assumption.
    rewrite find_pos_app_r by (rewrite dedup_In; exact Hb).
    pose proof (find_pos_lt _ _ Hia). lia.
  - now apply find_pos_lt.
  - now rewrite nth_find_pos.
Qed.

Theorem sparse_repeated_raises : forall op l1 a l2 b l3 shapes c ins p,
  In a l1 -> ~ In b (l1 ++ a :: l2) ->
  einsum_sparse_comp op (l1 ++ a :: l2 ++ b :: l3) shapes = Some c ->
  c_partials c ins p = None.
Proof.
  intros op l1 a l2 b l3 shapes c ins p Ha Hb E.
  destruct (late_name (b :: l3) (l1 ++ a :: l2)) as (x & Hx & Hle).
  - intros Hn. apply NoDup_remove_2 in Hn. apply Hn. apply in_or_app. now left.
  - exists b. split; [now left|assumption].
  - assert (En : (l1 ++ a :: l2) ++ b :: l3 = l1 ++ a :: l2 ++ b :: l3)
      by (rewrite <- app_assoc; reflexivity).
    rewrite En in *. set (names := l1 ++ a :: l2 ++ b :: l3) in *.
    unfold einsum_sparse_comp in E. destruct (compute_einsum_shape _ _) as [os|]; [|discriminate].
    destruct (map_opt (sparse_pattern _ _ _ _) _) as [pats|]; [|discriminate].
    inversion E; subst c. cbn [c_partials]. clear E.
    set (q := find_pos (distinct names) x).
    assert (Hxd : In x (distinct names)) by now apply dedup_In.
    rewrite map_opt_none with (x := q); [reflexivity| |].
    + apply in_seq. split; [lia|]. apply find_pos_lt. exact Hxd.
    + unfold sparse_partial, full_partial. replace (nth q (distinct names) 0) with x
        by (symmetry; now apply nth_find_pos).
      assert (En' : nth_error (map (fun m => identity_tensor (shape_of_name names shapes m)) (distinct names))
                     (find_pos names x) = None).
      { apply nth_error_None. rewrite map_length. exact Hle. }
      now rewrite En'.
Qed.

Theorem sparse_repeated_last : forall op subs out ext ds rs,
  np_subscripts op = Some (subs, out) ->
  length subs = length (ds ++ rs) -> NoDup ds -> incl rs ds ->
  (forall j j', j < length (ds ++ rs) -> j' < length (ds ++ rs) ->
     nth j (ds ++ rs) 0 = nth j' (ds ++ rs) 0 ->
     map ext (nth j subs []) = map ext (nth j' subs [])) ->
  NoDup out -> incl out (concat subs) ->
  (forall r, In r subs -> length r <= length (unused_chars op)) ->
  (forall l, In l (concat subs) -> 0 < ext l) ->
  (forall q q', q < q' -> q' < length ds ->
     keeps subs out (ds ++ rs) (nth q' ds 0) -> keeps subs out (ds ++ rs) (nth q ds 0)) ->
  exists c, einsum_sparse_comp op (ds ++ rs) (map (map ext) subs) = Some c /\
    c_ins c = firstn (length ds) (map (map ext) subs) /\
    c_out c = (match out with [] => [1] | _ => map ext out end) /\
    correct c (einsum_meaning subs out ext ds (ds ++ rs)).
Proof.
  intros op subs out ext ds rs Hp Hl Hd Hr Hs Hn Ho Hk He Hq.
  exact (einsum_sparse_lemma op subs out ext ds rs Hp Hl Hd Hr Hs Hn Ho Hk He Hq).
Qed.

Theorem sparse_distinct : forall op subs out ext names,
  np_subscripts op = Some (subs, out) ->
  length subs = length names -> NoDup names ->
  NoDup out -> incl out (concat subs) ->
  (forall r, In r subs -> length r <= length (unused_chars op)) ->
  (forall l, In l (concat subs) -> 0 < ext l) ->
  (forall q q', q < q' -> q' < length subs ->
     (exists l, In l (nth q' subs []) /\ In l out) -> exists l, In l (nth q subs []) /\ In l out) ->
  exists c, einsum_sparse_comp op names (map (map ext) subs) = Some c /\
    c_ins c = map (map ext) subs /\
    c_out c = (match out with [] => [1] | _ => map ext out end) /\
    correct c (einsum_meaning subs out ext names names).
Proof.
  intros op subs out ext names Hp Hl Hn Hno Ho Hr He Hq.
  destruct (sparse_repeated_last op subs out ext names []) as (c & E & Hi & Hc & Hcor).
  - assumption.
  - now rewrite app_nil_r.
  - assumption.
  - intros x [].
  - rewrite app_nil_r. intros j j' Hj Hj' E.
    assert (j = j') by (eapply (proj1 (NoDup_nth names 0)); eauto). now subst.
  - assumption.
  - assumption.
  - assumption.
  - assumption.
  - rewrite app_nil_r. intros q q' Hlt Hq' Hk j Hj E.
    assert (j = q) by (eapply (proj1 (NoDup_nth names 0)); eauto; lia). subst j.
    apply (Hq q q'); [assumption|lia|]. apply Hk; auto.
  - rewrite app_nil_r in *. exists c. splits; try assumption.
    rewrite Hi. apply firstn_all2. rewrite map_length. lia.
Qed.

(** einsum(x, y, subscripts='i,j->j', partial_format='sparse') *)
Definition summed_first_op := codes "i,j->j"%string.
Theorem sparse_wrong : forall n m, 0 < n -> 0 < m -> exists c,
  einsum_sparse_comp summed_first_op [0; 1] [[n]; [m]] = Some c /\
  forall meaning, ~ correct c meaning.
Proof.
  intros n m Hn Hm.
  destruct (einsum_sparse_comp summed_first_op [0; 1] [[n]; [m]]) as [c|] eqn:E.
  - exists c. split; [reflexivity|]. intros meaning (F & _ & Hd).
    assert (Hl : 0 < length (c_ins c)).
    { unfold einsum_sparse_comp in E. destruct (compute_einsum_shape _ _); [|discriminate].
      destruct (map_opt _ _); [|discriminate]. inversion E; subst c. cbn. lia. }
    destruct (Hd (fun _ _ => 0%R) 0 I Hl) as (j & Ej & _).
    rewrite (sparse_order_raises summed_first_op [codes "i"%string; codes "j"%string] (codes "j"%string)
               [] 0 [] 1 [] [[n]; [m]] c) in Ej.
    + discriminate.
    + reflexivity.
    + reflexivity.
    + cbn. lia.
    + intros Hk. destruct (Hk 0 ltac:(cbn; lia) eq_refl) as (l & H1 & H2). cbn in H1, H2.
      destruct H1 as [<-|[]]. destruct H2 as [H2|[]]. discriminate.
    + intros k Hk Ek. cbn in Hk. destruct k as [|[|k]]; cbn in Ek; try discriminate; [|lia].
      exists 106. cbn. auto.
    + exact E.
  - exfalso. revert E. unfold einsum_sparse_comp. 
    change (compute_einsum_shape (subscripts_tolist summed_first_op) [[n]; [m]]) with (Some [m]).
    cbv beta iota.
    destruct (map_opt _ _) eqn:Em; [discriminate|]. intros _. revert Em.
    change (seq 0 (length (distinct [0; 1]))) with [0; 1]. cbn [map_opt].
    change (sparse_pattern summed_first_op [0; 1] [[n]; [m]] [m] 0) with (Some (@None (list (list nat)))).
    destruct (sparse_pattern summed_first_op [0; 1] [[n]; [m]] [m] 1) as [x|] eqn:E1; [discriminate|].
    exfalso. revert E1.
    set (ext := fun l => if Nat.eqb l 105 then n else m).
    intros E1.
    destruct (pattern_call summed_first_op [codes "i"%string; codes "j"%string] (codes "j"%string)
                ext [0; 1] []) with (q := 1) as (pat & Ep & _).
    + reflexivity.
    + reflexivity.
    + repeat constructor; cbn; intuition discriminate.
    + intros x [].
    + intros [|[|j]] [|[|j']] H1 H2 H3; cbn in *; try discriminate; try reflexivity; lia.
    + repeat constructor; cbn; intuition discriminate.
    + intros l Hl. cbn in *. tauto.
    + intros r [<-|[<-|[]]]; vm_compute; lia.
    + intros l Hl. unfold ext. destruct (Nat.eqb l 105); assumption.
    + cbn. lia.
    + change (sparse_pattern summed_first_op [0; 1] [[n]; [m]] [m] 1 = Some pat) in Ep. congruence.
Qed.

(** 'ij,jk->ik': both operands keep their patterns *)
Example sparse_instance :
  exists c, einsum_sparse_comp (codes "ij,jk->ik"%string) [4; 9] [[2; 3]; [3; 5]] = Some c /\
    correct c (einsum_meaning [codes "ij"%string; codes "jk"%string] (codes "ik"%string)
       (fun l => if Nat.eqb l 105 then 2 else if Nat.eqb l 106 then 3 else 5) [4; 9] [4; 9]).
Proof.
  destruct (sparse_distinct (codes "ij,jk->ik"%string) [codes "ij"%string; codes "jk"%string]
     (codes "ik"%string) (fun l => if Nat.eqb l 105 then 2 else if Nat.eqb l 106 then 3 else 5) [4; 9])
    as (c & E & _ & _ & H).
  - reflexivity.
  - reflexivity.
  - repeat constructor; cbn; intuition discriminate.
  - repeat constructor; cbn; intuition discriminate.
  - intros x Hx. cbn in *. tauto.
  - intros r [<-|[<-|[]]]; vm_compute; lia.
  - intros l _. destruct (Nat.eqb l 105); [lia|]. destruct (Nat.eqb l 106); lia.
  - intros q q' Hlt Hq' _. cbn in Hq'. assert (q = 0) by lia. subst. exists 105. cbn. auto.
  - eauto.
Qed.

(** the pattern of 'i,i->i' for the first operand: the diagonal *)
Example sparse_pattern_instance :
  sparse_pattern (codes "i,i->i"%string) [0; 1] [[3]; [3]] [3] 0 = Some (Some [[0; 0]; [1; 1]; [2; 2]]).
Proof. reflexivity. Qed.

(** 'a,b->b' with b before a works: the summed operand comes last *)
Example sparse_order_instance :
  keeps [codes "b"%string; codes "a"%string] (codes "b"%string) [3; 7] 3 /\
  ~ keeps [codes "b"%string; codes "a"%string] (codes "b"%string) [3; 7] 7.
Proof.
  split.
  - intros j Hj Ej. cbn in Hj. destruct j as [|[|j]]; cbn in Ej; try discriminate; [|lia].
    exists 98. cbn. auto.
  - intros Hk. destruct (Hk 1 ltac:(cbn; lia) eq_refl) as (l & H1 & H2). cbn in H1, H2.
    destruct H1 as [<-|[]]. destruct H2 as [H2|[]]. discriminate.
Qed.
