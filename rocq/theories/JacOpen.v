(** Correctness of a component on an open set of inputs, for operations that are
    not defined everywhere. *)
From Coq Require Import Reals Lra Lia Arith List Bool.
From Verif Require Import PyBase RSum NdArray Component JacSpec.
Import ListNotations.
Local Open Scope R_scope.

(** Small changes of one entry stay inside [dom], so that the derivative only
    depends on the values inside. *)
Definition open_dom (ss : list (list nat)) (dom : (nat -> nat -> R) -> Prop) : Prop :=
  forall v p i, dom v -> (p < length ss)%nat -> (i < size (nth p ss []))%nat ->
    exists d, 0 < d /\
      forall t, Rabs (t - v p i) < d -> dom (set_op v p (upd (v p) i t)).

(** Inside [dom], compute succeeds with a result of the declared shape that is
    the array described by [meaning], and the declared partials are the Jacobian. *)
Definition correct_within (dom : (nat -> nat -> R) -> Prop) (c : component)
           (meaning : list (nd R) -> nd R -> Prop) : Prop :=
  open_dom (c_ins c) dom /\
  exists F : (nat -> nat -> R) -> nat -> R,
    (forall v, dom v -> let ins := inputs_of (c_ins c) v in
       c_compute c ins = Some (Nd (c_out c) (F v)) /\
       meaning ins (Nd (c_out c) (F v))) /\
    (forall v p, dom v -> (p < length (c_ins c))%nat ->
       exists j, c_partials c (inputs_of (c_ins c) v) p = Some j /\
         exact_jac (size (c_out c)) (size (nth p (c_ins c) []))
                   (fun x => F (set_op v p x)) (v p) j).

Lemma correct_within_intro : forall (dom : (nat -> nat -> R) -> Prop) c meaning F,
  open_dom (c_ins c) dom ->
  (forall v, dom v -> exists y,
     c_compute c (inputs_of (c_ins c) v) = Some y /\ shp y = c_out c /\
     meaning (inputs_of (c_ins c) v) y /\
     forall o, (o < size (c_out c))%nat -> dat y o = F v o) ->
  (forall v p, dom v -> (p < length (c_ins c))%nat ->
     exists j, c_partials c (inputs_of (c_ins c) v) p = Some j /\
       exact_jac (size (c_out c)) (size (nth p (c_ins c) []))
                 (fun x => F (set_op v p x)) (v p) j) ->
  correct_within dom c meaning.
Proof.
  intros dom c meaning F Ho Hc Hp. split; [assumption|].
  exists (fun v => match c_compute c (inputs_of (c_ins c) v) with
                   | Some y => dat y
                   | None => fun _ => 0
                   end).
  split.
  - intros v Hv. cbn zeta. destruct (Hc v Hv) as (y & E & Hs & Hm & _).
    rewrite E. destruct y as [s d]. cbn in *. subst s. split; auto.
  - intros v p Hd Hlt. destruct (Hp v p Hd Hlt) as (j & Hj & He).
    exists j. split; [exact Hj|].
    assert (Hj' : forall J,
      jacobian_at (size (c_out c)) (size (nth p (c_ins c) [])) (fun x => F (set_op v p x)) (v p) J ->
      jacobian_at (size (c_out c)) (size (nth p (c_ins c) []))
        (fun x => match c_compute c (inputs_of (c_ins c) (set_op v p x)) with
                   | Some y => dat y
                   | None => fun _ => 0
                   end) (v p) J).
    { intros J HJ o i Hoo Hi. specialize (HJ o i Hoo Hi). unfold partial_at in *.
      destruct (Ho v p i Hd Hlt Hi) as (d & Hdp & Hdom).
      eapply derivable_pt_lim_ext_loc; [exact Hdp| |exact HJ].
      intros t Ht. cbn beta. destruct (Hc _ (Hdom t Ht)) as (y & E & _ & _ & H). rewrite E.
      symmetry. now apply H. }
    destruct j as [k|k]; destruct He as [H1 H2]; split; try assumption; now apply Hj'.
Qed.

Lemma open_dom_true : forall ss, open_dom ss (fun _ => True).
Proof. intros ss v p i _ _ _. exists 1. split; [lra|auto]. Qed.

Lemma correct_within_true : forall c meaning,
  correct_within (fun _ => True) c meaning -> correct c meaning.
Proof. intros c meaning (_ & F & H1 & H2). exists F. split; [intros v; exact (H1 v I)|intros v p _; exact (H2 v p I)]. Qed.

(** a set given by an open condition on every entry of one operand *)
Definition open_set (P : R -> Prop) : Prop :=
  forall x, P x -> exists d, 0 < d /\ forall t, Rabs (t - x) < d -> P t.

Lemma open_dom_entries : forall ss (q : nat) n (P : R -> Prop), open_set P ->
  open_dom ss (fun v => forall o, (o < n)%nat -> P (v q o)).
Proof.
  intros ss q n P HP v p i Hv Hp Hi.
  destruct (Nat.eq_dec q p) as [->|Hne].
  - destruct (le_lt_dec n i) as [Hle|Hlt].
    + exists 1. split; [lra|]. intros t _ o Ho. rewrite set_op_same, upd_other by lia. auto.
    + destruct (HP _ (Hv i Hlt)) as (d & Hd & H). exists d. split; [assumption|].
      intros t Ht o Ho. rewrite set_op_same. unfold upd. destruct (Nat.eqb_spec o i) as [->|]; auto.
  - exists 1. split; [lra|]. intros t _ o Ho. rewrite set_op_other by auto. auto.
Qed.

Lemma open_true : open_set (fun _ => True).
Proof. intros x _. exists 1. split; [lra|auto]. Qed.

Lemma open_nonzero : open_set (fun x => x <> 0).
Proof.
  intros x Hx. exists (Rabs x). split; [now apply Rabs_pos_lt|].
  intros t Ht E. subst t. rewrite Rminus_0_l, Rabs_Ropp in Ht. lra.
Qed.

Lemma open_pos : open_set (fun x => 0 < x).
Proof.
  intros x Hx. exists x. split; [assumption|]. intros t Ht. apply Rabs_def2 in Ht. lra.
Qed.

Lemma open_between : forall a b, open_set (fun x => a < x < b).
Proof.
  intros a b x Hx. exists (Rmin (x - a) (b - x)). split; [apply Rmin_pos; lra|].
  intros t Ht. apply Rabs_def2 in Ht. pose proof (Rmin_l (x - a) (b - x)).
  pose proof (Rmin_r (x - a) (b - x)). lra.
Qed.

(** preimages under a continuous function *)
Lemma open_cont_nonzero : forall f : R -> R, continuity f -> open_set (fun x => f x <> 0).
Proof.
  intros f Hf x Hx. destruct (Hf x (Rabs (f x))) as (d & Hd & H).
  - now apply Rabs_pos_lt.
  - exists d. split; [assumption|]. intros t Ht E.
    destruct (Req_dec t x) as [->|Hne]; [contradiction|].
    assert (Hdist : R_dist (f t) (f x) < Rabs (f x)).
    { apply H. split; [split; [exact I|auto]|]. exact Ht. }
    unfold R_dist in Hdist. rewrite E, Rminus_0_l, Rabs_Ropp in Hdist. lra.
Qed.

Lemma open_and : forall P Q, open_set P -> open_set Q -> open_set (fun x => P x /\ Q x).
Proof.
  intros P Q HP HQ x [H1 H2]. destruct (HP x H1) as (d1 & Hd1 & K1).
  destruct (HQ x H2) as (d2 & Hd2 & K2). exists (Rmin d1 d2). split; [apply Rmin_pos; assumption|].
  intros t Ht. pose proof (Rmin_l d1 d2). pose proof (Rmin_r d1 d2).
  split; [apply K1|apply K2]; lra.
Qed.

(** ---- operations that work entry by entry ---- *)

(** Component with [n] inputs of shape [s] and an output of shape [s], whose
    entry [o] depends on the entries [o] of the inputs only. *)
Lemma elementwise_correct : forall (dom : (nat -> nat -> R) -> Prop) c s n
    (meaning : list (nd R) -> nd R -> Prop)
    (G : nat -> (nat -> R) -> R) (D : (nat -> nat -> R) -> nat -> nat -> R),
  c_ins c = repeat s n -> c_out c = s ->
  open_dom (repeat s n) dom ->
  (forall o x x', (forall p, (p < n)%nat -> x p = x' p) -> G o x = G o x') ->
  (forall v, dom v -> exists y,
     c_compute c (inputs_of (repeat s n) v) = Some y /\ shp y = s /\
     forall o, (o < size s)%nat -> dat y o = G o (fun p => v p o)) ->
  (forall v y, dom v -> shp y = s ->
     (forall o, (o < size s)%nat -> dat y o = G o (fun p => v p o)) ->
     meaning (inputs_of (repeat s n) v) y) ->
  (forall v p, dom v -> (p < n)%nat -> exists k,
     c_partials c (inputs_of (repeat s n) v) p = Some (Sparse k) /\
     nnz k = size s /\ rows k = (fun i => i) /\ cols k = (fun i => i) /\
     forall o, (o < size s)%nat -> vals k o = D v p o) ->
  (forall v p o, dom v -> (p < n)%nat -> (o < size s)%nat ->
     derivable_pt_lim (fun t => G o (upd (fun q => v q o) p t)) (v p o) (D v p o)) ->
  correct_within dom c meaning.
Proof.
  intros dom c s n meaning G D Hin Hout Hop HG Hc Hm Hp HD.
  apply correct_within_intro with (F := fun v o => G o (fun p => v p o)); rewrite Hin.
  - assumption.
  - intros v Hv. destruct (Hc v Hv) as (y & E & Hs & Hd). exists y. rewrite Hout.
    splits; auto.
  - intros v p Hv Hlt. rewrite repeat_length in Hlt.
    destruct (Hp v p Hv Hlt) as ([nz rs cs vs] & E & Hn & Hr & Hcl & Hvs).
    exists (Sparse (Coo nz rs cs vs)). split; [exact E|]. cbn in Hn, Hr, Hcl, Hvs. subst nz rs cs.
    rewrite Hout, nth_repeat_lt by assumption. cbn [exact_jac].
    apply exact_sparse_gather with (g := fun o t => G o (upd (fun q => v q o) p t)).
    + auto.
    + intros x' o Ho. apply HG. intros q Hq. unfold set_op, upd. now destruct (Nat.eqb q p).
    + intros o Ho. rewrite Hvs by assumption. now apply HD.
Qed.
