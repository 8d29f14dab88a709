(** Keys with entries that are neither integers nor slices. *)
From Coq Require Import Reals Lia Arith List Bool ZArith.
From Verif Require Import PyBase RSum NdArray NdIndex Component CompReorder JacSpec Indexing SpecIndex IndexProofs.
Import ListNotations.
Local Open Scope Z_scope.

Lemma left_over_plain : forall l s i, Forall is_plain (left_over s i l).
Proof.
  induction l as [|k l IH]; intros s i; cbn [left_over]; [constructor|].
  destruct k as [z|[a b st]| | |]; try apply IH; (constructor; [exact I|apply IH]).
Qed.

Lemma norm_left_over : forall l s i j nk, (j <= i)%nat -> norm_entries s i l = Some nk ->
  norm_entries s j (left_over s i l) = Some nk.
Proof.
  induction l as [|k l IH]; intros s i j nk Hj H; cbn [norm_entries left_over] in *; [exact H|].
  destruct (norm_entries s (S i) l) as [r|] eqn:E; [|discriminate].
  destruct k as [z|[a b st]| | |].
  - cbn [norm_entries]. rewrite (IH s (S i) (S j) r) by (assumption || lia). exact H.
  - cbn [norm_entries]. rewrite (IH s (S i) (S j) r) by (assumption || lia).
    destruct (nth_error s i) as [n|] eqn:Ei; [|discriminate]. injection H as <-.
    assert (Hl : (i < length s)%nat) by (apply nth_error_Some; congruence).
    destruct (nth_error s j) as [m|] eqn:Ej; [|apply nth_error_None in Ej; lia].
    unfold slice_to_tuple. cbn [sl_start sl_stop sl_step option_map]. destruct b; reflexivity.
  - injection H as <-. apply IH; [lia|assumption].
  - injection H as <-. apply IH; [lia|assumption].
  - injection H as <-. apply IH; [lia|assumption].
Qed.

Lemma norm_placed : forall l s i, (exists nk, norm_entries s i l = Some nk) <->
  forall j a, nth_error l j = Some (KSlice a) -> (i + j < length s)%nat.
Proof.
  induction l as [|k l IH]; intros s i; cbn [norm_entries].
  - split; [intros _ [|j] a H; discriminate|intros _; eexists; reflexivity].
  - specialize (IH s (S i)). destruct (norm_entries s (S i) l) as [r|] eqn:E.
    + assert (T : forall j a, nth_error l j = Some (KSlice a) -> (S i + j < length s)%nat) by (apply IH; now exists r).
      assert (U : (forall a, k = KSlice a -> (i < length s)%nat) ->
                  forall j a, nth_error (k :: l) j = Some (KSlice a) -> (i + j < length s)%nat).
      { intros K [|j] a H; cbn in H; [|specialize (T j a H); lia]. injection H as H. specialize (K a H). lia. }
      destruct k as [z|a| | |]; try (split; [intros _; apply U; discriminate|intros _; eexists; reflexivity]).
      destruct (nth_error s i) as [n|] eqn:Ei.
      * split; [intros _; apply U|intros _; eexists; reflexivity]. intros a' _. apply nth_error_Some. congruence.
      * split; [intros [nk H]; discriminate|]. intros H. exfalso. apply nth_error_None in Ei.
        specialize (H 0%nat a eq_refl). lia.
    + split; [intros [nk H]; discriminate|]. intros H. exfalso.
      assert (Q : exists nk, @None (list bounds) = Some nk).
      { apply IH. intros j a Hj. specialize (H (S j) a Hj). lia. }
      destruct Q as [nk Q]. discriminate.
Qed.

(** C72 *)
Lemma other_value : forall s ks l x rs x' e,
  getitems (fresh_var s s) ks = (x, rs) -> getitem x (KTuple l) = (x', Some e) ->
  exists p c, piece_of x' e = Some p /\ decompose_comp s p = Some c /\
    c_ins c = [s] /\ c_out c = pc_shape p /\ correct c (selects (KTuple (left_over s 0 l))).
Proof.
  intros s ks l x rs x' e H1 H2.
  destruct (getitems_step _ _ _ _ (fresh_good s s) H1) as (G & S & V & _).
  cbn [av_shape av_val fresh_var] in S, V.
  destruct (getitem_step _ _ _ _ G H2) as (G' & S' & V' & _ & R).
  destruct (R e eq_refl) as (nk & p & En & Ed & Hin & Hk & <-).
  assert (Hok : piece_ok x' p).
  { unfold good in G'. rewrite Ed in G'. destruct G' as (_ & F & _). rewrite Forall_forall in F. auto. }
  destruct Hok as [O1 O2]. rewrite S', S in O1. rewrite V', V in O2. rewrite S in En. rewrite Hk in O1, O2.
  assert (Hp : plain_key (KTuple (left_over s 0 l))) by apply left_over_plain.
  assert (En' : norm_key s (KTuple (left_over s 0 l)) = Some nk).
  { cbn [norm_key] in *. now apply norm_left_over. }
  destruct (piece_correct s (KTuple (left_over s 0 l)) nk p Hp En' Hk O1 O2) as (c & C).
  exists p, c. split; [|assumption]. now apply piece_of_in with (ps := pieces x').
Qed.

Lemma other_accept : forall s ks l x rs,
  getitems (fresh_var s s) ks = (x, rs) ->
  ks = [] /\ val_key_ok s (KTuple l) = true \/ some_accepted rs ->
  ((exists e, snd (getitem x (KTuple l)) = Some e) <->
   slices_placed s l /\ key_within s (KTuple (left_over s 0 l))).
Proof.
  intros s ks l x rs H1 Hh. assert (Hp : plain_key (KTuple (left_over s 0 l))) by apply left_over_plain.
  destruct (getitems_step _ _ _ _ (fresh_good s s) H1) as (G & S & V & _ & Hd & H0).
  cbn [av_shape av_val fresh_var] in S, V. split.
  - intros [e E]. destruct (getitem x (KTuple l)) as [x' r] eqn:E2. cbn [snd] in E. subst r.
    destruct (getitem_step _ _ _ _ G E2) as (G' & S' & V' & _ & R).
    destruct (R e eq_refl) as (nk & p & En & Ed & Hin & Hk & <-).
    unfold good in G'. rewrite Ed in G'. destruct G' as (_ & F & _). rewrite Forall_forall in F.
    destruct (F p Hin) as [O1 _]. rewrite S', S, Hk in O1. rewrite S in En. cbn [norm_key] in En. split.
    + intros i a Hi. assert (Q : exists nk, norm_entries s 0 l = Some nk) by now exists nk.
      exact (proj1 (norm_placed l s 0) Q i a Hi).
    + apply src_within; [assumption|]. exists nk, (pc_src p). split; [|assumption].
      cbn [norm_key]. now apply norm_left_over.
  - intros [P W]. apply src_within in W; [|assumption]. destruct W as (nk' & src & En' & Es).
    destruct (proj2 (norm_placed l s 0) P) as [nk En].
    assert (nk' = nk). { cbn [norm_key] in En'. rewrite (norm_left_over l s 0 0 nk (le_n 0) En) in En'. congruence. }
    subst nk'. destruct (src_spec _ _ _ _ Hp En' Es) as (ls & _ & _ & Hsh & _).
    assert (Hx : av_called x = true -> exists ps, av_decomp x = Some ps).
    { intros Hc. destruct (av_decomp x) as [ps|] eqn:Ed; [now exists ps|]. exfalso.
      destruct Hh as [[Hh _]|Hh]; [|apply Hd; auto]. rewrite (H0 Hh) in Hc. discriminate. }
    unfold getitem. rewrite S, V. cbn [norm_key]. rewrite En. destruct (av_called x) eqn:Ec; cbn [negb andb].
    + destruct (Hx eq_refl) as [ps ->]. destruct (find_piece ps nk); [eexists; reflexivity|].
      rewrite Es, Hsh. eexists; reflexivity.
    + assert (Hv : val_key_ok s (KTuple l) = true).
      { destruct Hh as [[_ Hh]|[e He]]; [assumption|]. exfalso.
        assert (Q : av_decomp x <> None) by (apply Hd; left; now exists e).
        unfold good in G. destruct (av_decomp x); [|congruence]. destruct G as [G _]. congruence. }
      rewrite Hv. cbn [negb av_decomp find_piece find]. rewrite Es, Hsh. eexists; reflexivity.
Qed.

Lemma other_alone : forall x k, match k with KInt _ | KSlice _ => False | _ => True end ->
  snd (getitem x (KOne k)) = None.
Proof.
  intros x k H. unfold getitem. destruct (_ && _); [reflexivity|].
  destruct k; try (exfalso; exact H); reflexivity.
Qed.

(** x of shape (2, 3): x[None, 0, 1] is x[0, 1]; x[1, None, :] is rejected, its
    slice being in third place; x[0, 1, None] and, later, even x[0, 1, 'a'] are x[0, 1];
    x[..., 1:] lacks an entry *)
Example other_case :
  snd (getitems (fresh_var [2; 3]%nat [2; 3]%nat)
        [KTuple [KNone; KInt 0; KInt 1]; KTuple [KInt 0; KInt 1];
         KTuple [KInt 1; KNone; KSlice sl_all]; KTuple [KInt 0; KInt 1; KNone];
         KTuple [KInt 0; KInt 1; KOther]; KTuple [KDots; KSlice (Slice (Some 1) None None)];
         KTuple [KNone; KSlice (Slice None None None); KInt 0]])
  = [Some 0; Some 0; None; Some 0; Some 0; None; None]%nat.
Proof. reflexivity. Qed.

(** x of shape (3, 2): x[None, :, 0] reads two of the three entries of the first axis *)
Example other_short_case : exists x' e p,
  left_over [3; 2]%nat 0 [KNone; KSlice sl_all; KInt 0] = [KSlice (Slice None (Some 2) None); KInt 0]
  /\ getitem (fresh_var [3; 2]%nat [3; 2]%nat) (KTuple [KNone; KSlice sl_all; KInt 0]) = (x', Some e)
  /\ piece_of x' e = Some p /\ pc_shape p = [2; 1]%nat
  /\ slices_placed [3; 2]%nat [KNone; KSlice sl_all; KInt 0].
Proof.
  do 3 eexists. splits; try (vm_compute; reflexivity).
  intros [|[|[|i]]] a H; try discriminate; cbn; [lia|]. destruct i; discriminate.
Qed.
