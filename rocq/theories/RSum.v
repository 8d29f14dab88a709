(** Finite sums and products of real numbers: the arithmetic vocabulary of the
    array components.  Nothing here models code; NumPy's sums are modelled by
    [rsum] over the exact reals (rounding and summation order are abstracted
    away, see DESIGN.md section 4). *)
From Coq Require Import Reals Lra Lia Arith List Bool.
From Coq Require Import FunctionalExtensionality.
Import ListNotations.
Local Open Scope R_scope.

(** [rsum n f] is f 0 + f 1 + ... + f (n-1). *)
Fixpoint rsum (n : nat) (f : nat -> R) : R :=
  match n with
  | O => 0
  | S m => rsum m f + f m
  end.

(** Kronecker delta / indicator of a boolean. *)
Definition ind (b : bool) : R := if b then 1 else 0.

Lemma rsum_ext : forall n f g,
  (forall k, (k < n)%nat -> f k = g k) -> rsum n f = rsum n g.
Proof.
  induction n as [|n IH]; intros f g H; simpl; [reflexivity|].
  rewrite (IH f g); [rewrite (H n); [reflexivity|lia]|intros; apply H; lia].
Qed.

Lemma rsum_zero : forall n f,
  (forall k, (k < n)%nat -> f k = 0) -> rsum n f = 0.
Proof.
  induction n as [|n IH]; intros f H; simpl; [reflexivity|].
  rewrite IH by (intros; apply H; lia). rewrite H by lia. lra.
Qed.

Lemma rsum_plus : forall n f g,
  rsum n (fun k => f k + g k) = rsum n f + rsum n g.
Proof. induction n as [|n IH]; intros; simpl; [lra|rewrite IH; lra]. Qed.

Lemma rsum_minus : forall n f g,
  rsum n (fun k => f k - g k) = rsum n f - rsum n g.
Proof. induction n as [|n IH]; intros; simpl; [lra|rewrite IH; lra]. Qed.

Lemma rsum_scal : forall n c f,
  rsum n (fun k => c * f k) = c * rsum n f.
Proof. induction n as [|n IH]; intros; simpl; [lra|rewrite IH; lra]. Qed.

Lemma rsum_scal_r : forall n c f,
  rsum n (fun k => f k * c) = rsum n f * c.
Proof. induction n as [|n IH]; intros; simpl; [lra|rewrite IH; lra]. Qed.

Lemma rsum_div : forall n c f,
  rsum n (fun k => f k / c) = rsum n f / c.
Proof. intros. unfold Rdiv. apply rsum_scal_r. Qed.

Lemma rsum_const : forall n c, rsum n (fun _ => c) = INR n * c.
Proof.
  induction n as [|n IH]; intros.
  - simpl. lra.
  - rewrite S_INR. simpl. rewrite IH. lra.
Qed.

Lemma rsum_nonneg : forall n f,
  (forall k, (k < n)%nat -> 0 <= f k) -> 0 <= rsum n f.
Proof.
  induction n as [|n IH]; intros f H; simpl; [lra|].
  assert (0 <= rsum n f) by (apply IH; intros; apply H; lia).
  assert (0 <= f n) by (apply H; lia). lra.
Qed.

Lemma rsum_le : forall n f g,
  (forall k, (k < n)%nat -> f k <= g k) -> rsum n f <= rsum n g.
Proof.
  induction n as [|n IH]; intros f g H; simpl; [lra|].
  assert (rsum n f <= rsum n g) by (apply IH; intros; apply H; lia).
  assert (f n <= g n) by (apply H; lia). lra.
Qed.

Lemma rsum_ge_term : forall n f j,
  (j < n)%nat -> (forall k, (k < n)%nat -> 0 <= f k) -> f j <= rsum n f.
Proof.
  induction n as [|n IH]; intros f j Hj H; [lia|]. simpl.
  destruct (Nat.eq_dec j n) as [->|Hne].
  - assert (0 <= rsum n f) by (apply rsum_nonneg; intros; apply H; lia). lra.
  - assert (f j <= rsum n f) by (apply IH; [lia|intros; apply H; lia]).
    assert (0 <= f n) by (apply H; lia). lra.
Qed.

Lemma rsum_pos : forall n f,
  (0 < n)%nat -> (forall k, (k < n)%nat -> 0 < f k) -> 0 < rsum n f.
Proof.
  intros n f Hn H.
  apply Rlt_le_trans with (f 0%nat); [apply H; lia|].
  apply rsum_ge_term; [lia|]. intros k Hk. left. apply H. lia.
Qed.

(** Only the [j]-th term is non-zero. *)
Lemma rsum_single : forall n f j,
  (j < n)%nat -> (forall k, (k < n)%nat -> k <> j -> f k = 0) ->
  rsum n f = f j.
Proof.
  induction n as [|n IH]; intros f j Hj H; [lia|]. simpl.
  destruct (Nat.eq_dec j n) as [->|Hne].
  - rewrite rsum_zero; [lra|]. intros k Hk. apply H; lia.
  - rewrite (IH f j); [|lia|intros; apply H; lia]. rewrite (H n); [lra|lia|lia].
Qed.

Lemma rsum_delta : forall n f j,
  (j < n)%nat -> rsum n (fun k => if Nat.eqb k j then f k else 0) = f j.
Proof.
  intros n f j Hj.
  rewrite (rsum_single n _ j Hj).
  - now rewrite Nat.eqb_refl.
  - intros k _ Hk. apply Nat.eqb_neq in Hk. now rewrite Hk.
Qed.

Lemma rsum_delta_out : forall n f j,
  (n <= j)%nat -> rsum n (fun k => if Nat.eqb k j then f k else 0) = 0.
Proof.
  intros n f j Hj. apply rsum_zero. intros k Hk.
  destruct (Nat.eqb_spec k j); [lia|reflexivity].
Qed.

Lemma rsum_app : forall n m f,
  rsum (n + m) f = rsum n f + rsum m (fun k => f (n + k)%nat).
Proof.
  intros n m f. induction m as [|m IH]; simpl.
  - rewrite Nat.add_0_r. lra.
  - rewrite Nat.add_succ_r. simpl. rewrite IH. lra.
Qed.

Lemma rsum_succ_l : forall n f,
  rsum (S n) f = f 0%nat + rsum n (fun k => f (S k)).
Proof.
  intros n f. change (S n) with (1 + n)%nat. rewrite rsum_app. simpl. lra.
Qed.

(** A sum over a two-dimensional row-major range. *)
Lemma rsum_mul : forall n m f,
  rsum (n * m) f = rsum n (fun i => rsum m (fun j => f (i * m + j)%nat)).
Proof.
  induction n as [|n IH]; intros m f; [reflexivity|].
  simpl rsum at 2. rewrite <- IH.
  replace (S n * m)%nat with (n * m + m)%nat by lia.
  rewrite rsum_app. reflexivity.
Qed.

Lemma rsum_swap : forall n m f,
  rsum n (fun i => rsum m (fun j => f i j)) =
  rsum m (fun j => rsum n (fun i => f i j)).
Proof.
  induction n as [|n IH]; intros m f; simpl.
  - symmetry. apply rsum_zero. reflexivity.
  - rewrite IH. rewrite <- rsum_plus. reflexivity.
Qed.

(** Reindexing along an injection of [0..n) into itself. *)
Lemma rsum_reindex : forall n (s : nat -> nat) f,
  (forall k, (k < n)%nat -> (s k < n)%nat) ->
  (forall k k', (k < n)%nat -> (k' < n)%nat -> s k = s k' -> k = k') ->
  rsum n (fun k => f (s k)) = rsum n f.
Proof.
  intros n s f Hr Hi.
  (* count every value of the range exactly once *)
  transitivity (rsum n (fun k => rsum n (fun j => if Nat.eqb j (s k) then f j else 0))).
  { apply rsum_ext. intros k Hk. symmetry. apply rsum_delta. now apply Hr. }
  rewrite rsum_swap. apply rsum_ext. intros j Hj.
  assert (Hex : exists k, (k < n)%nat /\ s k = j).
  { assert (Hincl : incl (seq 0 n) (map s (seq 0 n))).
    { apply NoDup_length_incl.
      - assert (Hnd : forall l, NoDup l -> (forall x, In x l -> (x < n)%nat) ->
                                NoDup (map s l)).
        { induction l as [|a l IHl]; intros Hl Hb; simpl; constructor.
          - intros Hin. apply in_map_iff in Hin. destruct Hin as [b [He Hb']].
            assert (a = b).
            { apply Hi; [apply Hb; now left|apply Hb; now right|now symmetry]. }
            subst. inversion Hl; subst. contradiction.
          - apply IHl; [now inversion Hl|intros; apply Hb; now right]. }
        apply Hnd; [apply seq_NoDup|]. intros x Hx. apply in_seq in Hx. lia.
      - rewrite map_length. lia.
      - intros x Hx. apply in_map_iff in Hx. destruct Hx as [k [He Hk]].
        apply in_seq in Hk. apply in_seq. subst. specialize (Hr k). lia. }
    assert (Hj' : In j (seq 0 n)) by (apply in_seq; lia).
    apply Hincl, in_map_iff in Hj'. destruct Hj' as [k [He Hk]].
    apply in_seq in Hk. exists k. split; [lia|exact He]. }
  destruct Hex as [k [Hk He]].
  rewrite (rsum_single n _ k Hk).
  - subst. now rewrite Nat.eqb_refl.
  - intros k' Hk' Hne. destruct (Nat.eqb_spec j (s k')) as [E|E]; [|reflexivity].
    exfalso. apply Hne. apply Hi; [assumption|assumption|congruence].
Qed.

Lemma rsum_if : forall n (b : bool) f,
  rsum n (fun k => if b then f k else 0) = if b then rsum n f else 0.
Proof. intros n [] f; [reflexivity|]. apply rsum_zero. reflexivity. Qed.

(** Finite products. *)
Fixpoint rprod (n : nat) (f : nat -> R) : R :=
  match n with
  | O => 1
  | S m => rprod m f * f m
  end.

Lemma rprod_ext : forall n f g,
  (forall k, (k < n)%nat -> f k = g k) -> rprod n f = rprod n g.
Proof.
  induction n as [|n IH]; intros f g H; simpl; [reflexivity|].
  rewrite (IH f g); [rewrite (H n); [reflexivity|lia]|intros; apply H; lia].
Qed.

(** Derivative of a finite sum, term by term. *)
Lemma derivable_pt_lim_rsum : forall n (f : nat -> R -> R) x (l : nat -> R),
  (forall k, (k < n)%nat -> derivable_pt_lim (f k) x (l k)) ->
  derivable_pt_lim (fun t => rsum n (fun k => f k t)) x (rsum n l).
Proof.
  induction n as [|n IH]; intros f x l H; simpl.
  - apply derivable_pt_lim_const.
  - apply derivable_pt_lim_plus with (f1 := fun t => rsum n (fun k => f k t)).
    + apply IH. intros; apply H; lia.
    + apply H. lia.
Qed.

Lemma derivable_pt_lim_ext : forall f g x l,
  (forall t, f t = g t) -> derivable_pt_lim f x l -> derivable_pt_lim g x l.
Proof.
  intros f g x l H D eps Heps. destruct (D eps Heps) as [delta Hd].
  exists delta. intros h Hh Hl. rewrite <- !H. now apply Hd.
Qed.

(** Equality in a neighbourhood is enough. *)
Lemma derivable_pt_lim_ext_loc : forall f g x l d,
  0 < d -> (forall t, Rabs (t - x) < d -> f t = g t) ->
  derivable_pt_lim f x l -> derivable_pt_lim g x l.
Proof.
  intros f g x l d Hd H D eps Heps. destruct (D eps Heps) as [[delta Hpos] Hdl].
  assert (Hm : 0 < Rmin d delta) by (apply Rmin_pos; assumption).
  exists (mkposreal _ Hm). intros h Hh Hl. simpl in Hl.
  rewrite <- !H.
  - apply Hdl; [assumption|]. simpl. apply Rlt_le_trans with (1 := Hl), Rmin_r.
  - replace (x - x) with 0 by ring. rewrite Rabs_R0. assumption.
  - replace (x + h - x) with h by ring. apply Rlt_le_trans with (1 := Hl), Rmin_l.
Qed.

Lemma derivable_pt_lim_eq : forall f x l l',
  l = l' -> derivable_pt_lim f x l -> derivable_pt_lim f x l'.
Proof. intros; subst; assumption. Qed.
