(** An einsum that combines an array without some axes with one that has them:
    "{out},{other}->{in}". *)
From Coq Require Import Reals Lra Lia Arith List Bool.
From Verif Require Import PyBase RSum NdArray NdEinsum SpecReduce ReduceProofs ReorderProofs.
Import ListNotations.
Local Open Scope nat_scope.

Lemma delete_from_map : forall (A B : Type) (f : A -> B) axes l i,
  delete_from i axes (map f l) = map f (delete_from i axes l).
Proof.
  intros A B f axes. induction l as [|x l IH]; intros i; [reflexivity|].
  cbn [map delete_from]. destruct (existsb (Nat.eqb i) axes); [apply IH|]. cbn [map]. now rewrite IH.
Qed.

Lemma delete_map : forall (A B : Type) (f : A -> B) axes l,
  delete axes (map f l) = map f (delete axes l).
Proof. intros. apply delete_from_map. Qed.

Lemma delete_from_incl : forall (A : Type) axes (l : list A) i, incl (delete_from i axes l) l.
Proof.
  intros A axes. induction l as [|x l IH]; intros i; [apply incl_refl|].
  cbn [delete_from]. destruct (existsb (Nat.eqb i) axes).
  - apply incl_tl, IH.
  - apply incl_cons; [now left|]. apply incl_tl, IH.
Qed.

Lemma delete_seq_In : forall axes n l,
  In l (delete axes (seq 0 n)) <-> (l < n /\ existsb (Nat.eqb l) axes = false).
Proof.
  intros axes n l. rewrite delete_drop. unfold drop_axes. rewrite seq_length.
  rewrite in_map_iff. split.
  - intros (j & E & Hj). apply filter_In in Hj. destruct Hj as [Hj Hn]. apply in_seq in Hj.
    rewrite seq_nth in E by lia. cbn in E. subst j. split; [lia|]. now apply negb_true_iff.
  - intros [Hl Hn]. exists l. split; [now rewrite seq_nth by lia|].
    apply filter_In. split; [apply in_seq; lia|]. now rewrite Hn.
Qed.

Lemma map_nth_seq : forall (l : list nat), map (fun i => nth i l 0) (seq 0 (length l)) = l.
Proof.
  intros l. apply nth_ext with (d := 0) (d' := 0); [now rewrite map_length, seq_length|].
  intros i Hi. rewrite map_length, seq_length in Hi.
  rewrite nth_indep with (d' := (fun i => nth i l 0) 0) by now rewrite map_length, seq_length.
  rewrite (map_nth (fun i => nth i l 0)), seq_nth by assumption. reflexivity.
Qed.

Lemma delete_as_map : forall axes l,
  delete axes l = map (fun i => nth i l 0) (delete axes (seq 0 (length l))).
Proof. intros axes l. rewrite <- delete_map. now rewrite map_nth_seq. Qed.

Lemma delete_length : forall (A : Type) axes (l m : list A), length l = length m ->
  length (delete axes l) = length (delete axes m).
Proof.
  intros A axes l m. unfold delete. generalize 0. revert m.
  induction l as [|x l IH]; intros [|y m] i H; try discriminate; [reflexivity|].
  cbn [delete_from]. injection H as H. destruct (existsb (Nat.eqb i) axes); [now apply IH|].
  cbn [length]. f_equal. now apply IH.
Qed.

Section Expand.
Context {A : Type}.
Variables (zero one : A) (add mul : A -> A -> A).
Hypothesis add_0_l : forall x, add zero x = x.

Lemma spread_einsum : forall (s axes sub2 : list nat) (g w : nd A),
  shp g = delete axes s ->
  incl sub2 (seq 0 (length s)) ->
  (forall l, l < length s -> existsb (Nat.eqb l) axes = true -> In l sub2) ->
  (forall l, In l sub2 -> nth (find_pos sub2 l) (shp w) 0 = nth l s 0) ->
  let e := np_einsum zero one add mul
             [(delete axes (seq 0 (length s)), g); (sub2, w)] (seq 0 (length s)) in
  shp e = s /\
  forall idx, inb s idx ->
    get e idx = mul (get g (delete axes idx)) (mul (get w (map (fun l => nth l idx 0) sub2)) one).
Proof.
  intros s axes sub2 g w Hg Hincl Hcover Hw e.
  set (L := seq 0 (length s)) in *.
  set (ops := [(delete axes L, g); (sub2, w)]) in *.
  assert (Hdims : map (dim_of ops) L = s).
  { transitivity (map (fun i => nth i s 0) L); [|apply map_nth_seq].
    apply map_ext_in. intros l Hl. unfold ops. cbn [dim_of].
    destruct (mem l (delete axes L)) eqn:E.
    - apply mem_In in E. rewrite Hg, (delete_as_map axes s). fold L.
      rewrite nth_indep with (d' := (fun i => nth i s 0) 0)
        by (rewrite map_length; now apply find_pos_lt).
      rewrite (map_nth (fun i => nth i s 0)). now rewrite nth_find_pos.
    - apply mem_not_In in E. unfold L in Hl, E. apply in_seq in Hl.
      assert (Hin : In l sub2).
      { apply Hcover; [lia|]. destruct (existsb (Nat.eqb l) axes) eqn:E'; [reflexivity|].
        exfalso. apply E. apply delete_seq_In. split; [lia|assumption]. }
      rewrite (proj2 (mem_In _ _) Hin). now apply Hw. }
  split; [exact Hdims|].
  intros idx Hi. unfold e. fold ops.
  rewrite einsum_plain.
  - unfold term, ops. cbn [map gprod fst snd].
    assert (Henv : forall l, In l L -> env_of L idx l = nth l idx 0).
    { intros l Hl. apply in_seq in Hl. apply env_of_seq; [lia|now apply inb_length]. }
    f_equal.
    + f_equal. rewrite (delete_as_map axes idx), (inb_length _ _ Hi). fold L.
      apply map_ext_in. intros l Hl. apply Henv. now apply (delete_from_incl nat axes L 0).
    + f_equal. f_equal. apply map_ext_in. intros l Hl. apply Henv. now apply Hincl.
  - exact add_0_l.
  - apply seq_NoDup.
  - intros l Hl. unfold in_labels, ops in Hl. cbn [map fst concat] in Hl.
    apply in_app_or in Hl. destruct Hl as [Hl|Hl].
    + now apply (delete_from_incl nat axes L 0).
    + rewrite app_nil_r in Hl. now apply Hincl.
  - rewrite Hdims. exact Hi.
Qed.
End Expand.
