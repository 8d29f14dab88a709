(** What it means for declared derivatives to be right: the specification used
    by every component property.

    A component output, seen as a function of the flattened values [x] of one of
    its inputs (all other inputs held fixed), is [f x o], the [o]-th entry in
    row-major order. *)
From Coq Require Import Reals Lra Lia Arith List Bool.
From Verif Require Import RSum NdArray Component.
Import ListNotations.
Local Open Scope R_scope.

(** [x] with entry [i] replaced by [t]. *)
Definition upd (x : nat -> R) (i : nat) (t : R) : nat -> R :=
  fun j => if Nat.eqb j i then t else x j.

(** [l] is the partial derivative of [f] at [x] in direction [i]. *)
Definition partial_at (f : (nat -> R) -> R) (x : nat -> R) (i : nat) (l : R) : Prop :=
  derivable_pt_lim (fun t => f (upd x i t)) (x i) l.

(** [J] is the Jacobian matrix of [f] at [x]. *)
Definition jacobian_at (nout nin : nat) (f : (nat -> R) -> nat -> R)
           (x : nat -> R) (J : nat -> nat -> R) : Prop :=
  forall o i, (o < nout)%nat -> (i < nin)%nat ->
    partial_at (fun x' => f x' o) x i (J o i).

(** The matrix it stands for: zero where no entry is listed. *)
Definition coo_entry (c : coo) (o i : nat) : R :=
  rsum (nnz c) (fun k => if Nat.eqb (rows c k) o && Nat.eqb (cols c k) i
                         then vals c k else 0).

(** Every coordinate is inside the matrix and listed once (OpenMDAO rejects
    other patterns). *)
Definition coo_pattern_ok (nout nin : nat) (c : coo) : Prop :=
  (forall k, (k < nnz c)%nat -> (rows c k < nout)%nat /\ (cols c k < nin)%nat) /\
  (forall k k', (k < nnz c)%nat -> (k' < nnz c)%nat ->
     rows c k = rows c k' -> cols c k = cols c k' -> k = k').

(** The sparse matrix [c] is a well-formed pattern and the Jacobian of [f]. *)
Definition exact_sparse (nout nin : nat) (f : (nat -> R) -> nat -> R)
           (x : nat -> R) (c : coo) : Prop :=
  coo_pattern_ok nout nin c /\ jacobian_at nout nin f x (coo_entry c).

(** A dense matrix, stored row-major as an array of nout*nin entries. *)
Definition dense_entry (nin : nat) (v : nd R) (o i : nat) : R := dat v (o * nin + i)%nat.

Definition exact_dense (nout nin : nat) (f : (nat -> R) -> nat -> R)
           (x : nat -> R) (v : nd R) : Prop :=
  size (shp v) = (nout * nin)%nat /\ jacobian_at nout nin f x (dense_entry nin v).

Definition exact_jac (nout nin : nat) (f : (nat -> R) -> nat -> R)
           (x : nat -> R) (j : jac) : Prop :=
  match j with
  | Sparse c => exact_sparse nout nin f x c
  | Dense v => exact_dense nout nin f x v
  end.

(** [v] with the values of operand [p] replaced by [x]. *)
Definition set_op (v : nat -> nat -> R) (p : nat) (x : nat -> R) : nat -> nat -> R :=
  fun q => if Nat.eqb q p then x else v q.

(** What a user expects of a component: for all input values (whatever their
    number and shapes), compute succeeds, its result has the declared output
    shape and is the array described by [meaning]; and wherever [dom] holds, the
    declared partials with respect to every input are the true Jacobian. *)
Definition correct_on (dom : (nat -> nat -> R) -> Prop) (c : component)
           (meaning : list (nd R) -> nd R -> Prop) : Prop :=
  exists F : (nat -> nat -> R) -> nat -> R,
    (forall v, let ins := inputs_of (c_ins c) v in
       c_compute c ins = Some (Nd (c_out c) (F v)) /\
       meaning ins (Nd (c_out c) (F v))) /\
    (forall v p, dom v -> (p < length (c_ins c))%nat ->
       exists j, c_partials c (inputs_of (c_ins c) v) p = Some j /\
         exact_jac (size (c_out c)) (size (nth p (c_ins c) []))
                   (fun x => F (set_op v p x)) (v p) j).

Definition correct (c : component) (meaning : list (nd R) -> nd R -> Prop) : Prop :=
  correct_on (fun _ => True) c meaning.

(** ------------------------------------------------------------------ *)
(** Tools *)

Lemma sparse_partials_vec : forall n r c v,
  shp r = [n] -> shp c = [n] -> shp v = [n] ->
  sparse_partials r c v = Some (Coo n (dat r) (dat c) (dat v)).
Proof.
  intros n r c v Hr Hc Hv. unfold sparse_partials. rewrite Hr, Hc, Hv.
  replace (size [n]) with n by (cbn; lia). cbn [shp scalar].
  destruct (list_eq_dec Nat.eq_dec [n] [n]); [|congruence].
  try (destruct (list_eq_dec Nat.eq_dec [] [n]); [congruence|]).
  reflexivity.
Qed.

Lemma sparse_partials_scalar : forall n r c x,
  shp r = [n] -> shp c = [n] ->
  sparse_partials r c (scalar x) = Some (Coo n (dat r) (dat c) (fun _ => x)).
Proof.
  intros n r c v Hr Hc. unfold sparse_partials. rewrite Hr, Hc.
  replace (size [n]) with n by (cbn; lia). cbn [shp scalar].
  destruct (list_eq_dec Nat.eq_dec [n] [n]); [|congruence].
  try (destruct (list_eq_dec Nat.eq_dec [] [n]); [congruence|]).
  reflexivity.
Qed.

Lemma upd_same : forall x i t, upd x i t i = t.
Proof. intros. unfold upd. now rewrite Nat.eqb_refl. Qed.

Lemma upd_other : forall x i j t, j <> i -> upd x i t j = x j.
Proof. intros x i j t H. unfold upd. apply Nat.eqb_neq in H. now rewrite H. Qed.

Lemma partial_upd : forall x i j,
  derivable_pt_lim (fun t => upd x i t j) (x i) (if Nat.eqb j i then 1 else 0).
Proof.
  intros x i j. unfold upd. destruct (Nat.eqb j i).
  - apply derivable_pt_lim_id.
  - apply derivable_pt_lim_const.
Qed.

Lemma partial_ext : forall f g x i l l',
  (forall t, f (upd x i t) = g (upd x i t)) -> l = l' ->
  partial_at f x i l -> partial_at g x i l'.
Proof.
  intros f g x i l l' H Hl D. subst. unfold partial_at in *.
  eapply derivable_pt_lim_ext; [|exact D]. exact H.
Qed.

(** A map given by a coordinate matrix has that matrix as its Jacobian. *)
Lemma coo_linear_jacobian : forall nout nin f x c,
  (forall k, (k < nnz c)%nat -> (cols c k < nin)%nat) ->
  (forall x' o, (o < nout)%nat ->
     f x' o = rsum (nnz c) (fun k => if Nat.eqb (rows c k) o
                                     then vals c k * x' (cols c k) else 0)) ->
  jacobian_at nout nin f x (coo_entry c).
Proof.
  intros nout nin f x c Hc Hf o i Ho Hi.
  apply partial_ext with
    (f := fun x' => rsum (nnz c) (fun k => if Nat.eqb (rows c k) o
                                     then vals c k * x' (cols c k) else 0))
    (l := rsum (nnz c) (fun k => if Nat.eqb (rows c k) o && Nat.eqb (cols c k) i
                                 then vals c k else 0)).
  - intros t. symmetry. now apply Hf.
  - reflexivity.
  - unfold partial_at. apply derivable_pt_lim_rsum. intros k Hk.
    destruct (Nat.eqb (rows c k) o); simpl; [|apply derivable_pt_lim_const].
    eapply derivable_pt_lim_eq; [|apply derivable_pt_lim_scal, partial_upd].
    destruct (Nat.eqb (cols c k) i); lra.
Qed.

Lemma exact_sparse_linear : forall nout nin f x c,
  coo_pattern_ok nout nin c ->
  (forall x' o, (o < nout)%nat ->
     f x' o = rsum (nnz c) (fun k => if Nat.eqb (rows c k) o
                                     then vals c k * x' (cols c k) else 0)) ->
  exact_sparse nout nin f x c.
Proof.
  intros nout nin f x c H Hf. split; [assumption|].
  apply coo_linear_jacobian; [|assumption]. intros k Hk. now apply (proj1 H).
Qed.

(** A map given by a dense matrix. *)
Lemma dense_linear_jacobian : forall nout nin f x J,
  (forall x' o, (o < nout)%nat -> f x' o = rsum nin (fun i => J o i * x' i)) ->
  jacobian_at nout nin f x J.
Proof.
  intros nout nin f x J Hf o i Ho Hi.
  apply partial_ext with
    (f := fun x' => rsum nin (fun j => J o j * x' j))
    (l := rsum nin (fun j => if Nat.eqb j i then J o j else 0)).
  - intros t. symmetry. now apply Hf.
  - rewrite rsum_delta by assumption. reflexivity.
  - unfold partial_at. apply derivable_pt_lim_rsum. intros k Hk.
    eapply derivable_pt_lim_eq; [|apply derivable_pt_lim_scal, partial_upd].
    destruct (Nat.eqb k i); lra.
Qed.

(** A pattern with one entry per row ([rows = arange]): each output element is
    a function of one input element. *)
Lemma exact_sparse_gather : forall n nin f x (g : nat -> R -> R) cs vs,
  (forall k, (k < n)%nat -> (cs k < nin)%nat) ->
  (forall x' o, (o < n)%nat -> f x' o = g o (x' (cs o))) ->
  (forall o, (o < n)%nat -> derivable_pt_lim (g o) (x (cs o)) (vs o)) ->
  exact_sparse n nin f x (Coo n (fun k => k) cs vs).
Proof.
  intros n nin f x g cs vs Hc Hf Hg. split.
  - split; simpl; [intros k Hk; split; [assumption|now apply Hc]|].
    intros k k' _ _ H _. exact H.
  - intros o i Ho Hi. unfold coo_entry. simpl.
    assert (E : rsum n (fun k => if (k =? o)%nat && (cs k =? i)%nat then vs k else 0)
                = if (cs o =? i)%nat then vs o else 0).
    { rewrite (rsum_single n _ o Ho).
      - now rewrite Nat.eqb_refl.
      - intros k _ Hk. apply Nat.eqb_neq in Hk. now rewrite Hk. }
    rewrite E.
    apply partial_ext with (f := fun x' => g o (x' (cs o)))
                           (l := if (cs o =? i)%nat then vs o else 0).
    + intros t. symmetry. now apply Hf.
    + reflexivity.
    + unfold partial_at, upd. destruct (Nat.eqb_spec (cs o) i) as [E'|E'].
      * subst i. now apply Hg.
      * apply derivable_pt_lim_const.
Qed.

(** The same for affine maps. *)
Lemma coo_affine_jacobian : forall nout nin f x c (b : nat -> R),
  (forall k, (k < nnz c)%nat -> (cols c k < nin)%nat) ->
  (forall x' o, (o < nout)%nat ->
     f x' o = b o + rsum (nnz c) (fun k => if Nat.eqb (rows c k) o
                                     then vals c k * x' (cols c k) else 0)) ->
  jacobian_at nout nin f x (coo_entry c).
Proof.
  intros nout nin f x c b Hc Hf o i Ho Hi.
  pose proof (coo_linear_jacobian nout nin
     (fun x' o => rsum (nnz c) (fun k => if Nat.eqb (rows c k) o
                                     then vals c k * x' (cols c k) else 0)) x c Hc
     (fun x' o _ => eq_refl) o i Ho Hi) as H.
  apply partial_ext with
    (f := fun x' => b o + rsum (nnz c) (fun k => if Nat.eqb (rows c k) o
                                     then vals c k * x' (cols c k) else 0))
    (l := 0 + coo_entry c o i).
  - intros t. symmetry. now apply Hf.
  - lra.
  - unfold partial_at in *.
    apply derivable_pt_lim_plus with (f1 := fun _ => b o); [apply derivable_pt_lim_const|].
    exact H.
Qed.

Lemma dense_affine_jacobian : forall nout nin f x J (b : nat -> R),
  (forall x' o, (o < nout)%nat -> f x' o = b o + rsum nin (fun i => J o i * x' i)) ->
  jacobian_at nout nin f x J.
Proof.
  intros nout nin f x J b Hf o i Ho Hi.
  pose proof (dense_linear_jacobian nout nin
     (fun x' o => rsum nin (fun i => J o i * x' i)) x J (fun x' o _ => eq_refl) o i Ho Hi) as H.
  apply partial_ext with (f := fun x' => b o + rsum nin (fun i => J o i * x' i))
    (l := 0 + J o i).
  - intros t. symmetry. now apply Hf.
  - lra.
  - unfold partial_at in *.
    apply derivable_pt_lim_plus with (f1 := fun _ => b o); [apply derivable_pt_lim_const|].
    exact H.
Qed.

Lemma set_op_same : forall v p x, set_op v p x p = x.
Proof. intros. unfold set_op. now rewrite Nat.eqb_refl. Qed.

Lemma set_op_other : forall v p q x, q <> p -> set_op v p x q = v q.
Proof. intros v p q x H. unfold set_op. apply Nat.eqb_neq in H. now rewrite H. Qed.

Lemma jacobian_ext : forall nout nin f g x J,
  (forall x' o, (o < nout)%nat -> f x' o = g x' o) ->
  jacobian_at nout nin f x J -> jacobian_at nout nin g x J.
Proof.
  intros nout nin f g x J H HJ o i Ho Hi.
  apply partial_ext with (f := fun x' => f x' o) (l := J o i);
    [intros t; now apply H | reflexivity | now apply HJ].
Qed.

Lemma exact_jac_ext : forall nout nin f g x j,
  (forall x' o, (o < nout)%nat -> f x' o = g x' o) ->
  exact_jac nout nin f x j -> exact_jac nout nin g x j.
Proof.
  intros nout nin f g x [c|v] H [H1 H2]; split; try assumption;
    eapply jacobian_ext; eauto.
Qed.

(** It is enough to describe the entries inside the output shape. *)
Lemma correct_intro : forall (dom : (nat -> nat -> R) -> Prop) c meaning F,
  (forall v, exists y,
     c_compute c (inputs_of (c_ins c) v) = Some y /\ shp y = c_out c /\
     meaning (inputs_of (c_ins c) v) y /\
     forall o, (o < size (c_out c))%nat -> dat y o = F v o) ->
  (forall v p, dom v -> (p < length (c_ins c))%nat ->
     exists j, c_partials c (inputs_of (c_ins c) v) p = Some j /\
       exact_jac (size (c_out c)) (size (nth p (c_ins c) []))
                 (fun x => F (set_op v p x)) (v p) j) ->
  correct_on dom c meaning.
Proof.
  intros dom c meaning F Hc Hp.
  exists (fun v => match c_compute c (inputs_of (c_ins c) v) with
                   | Some y => dat y
                   | None => fun _ => 0
                   end).
  split.
  - intros v. cbn zeta. destruct (Hc v) as (y & E & Hs & Hm & _).
    rewrite E. destruct y as [s d]. cbn in *. subst s. split; auto.
  - intros v p Hd Hlt. destruct (Hp v p Hd Hlt) as (j & Hj & He).
    exists j. split; [exact Hj|].
    eapply exact_jac_ext; [|exact He].
    intros x' o Ho. cbn beta.
    destruct (Hc (set_op v p x')) as (y & E & _ & _ & H). rewrite E.
    symmetry. now apply H.
Qed.

Lemma inputs_of_length : forall ss v, length (inputs_of ss v) = length ss.
Proof. intros. unfold inputs_of. now rewrite map_length, seq_length. Qed.

Lemma inputs_of_nth : forall ss v p d, (p < length ss)%nat ->
  nth p (inputs_of ss v) d = Nd (nth p ss []) (v p).
Proof.
  intros ss v p d H. unfold inputs_of.
  rewrite nth_indep with (d' := Nd (nth 0%nat ss []) (v 0%nat))
    by now rewrite map_length, seq_length.
  rewrite (map_nth (fun p => Nd (nth p ss []) (v p))).
  rewrite seq_nth by assumption. reflexivity.
Qed.

Lemma nth_repeat_lt : forall (A : Type) (a : A) d n p, (p < n)%nat ->
  nth p (repeat a n) d = a.
Proof.
  intros A a d. induction n as [|n IH]; intros p H; [lia|].
  destruct p; cbn; [reflexivity|]. apply IH. lia.
Qed.

(** Sparse patterns made of blocks: the entries [b*n .. b*n+n-1] all belong to
    row [rho b]. *)
Lemma exact_sparse_blocks : forall B n nout nin f x c (rho : nat -> nat) (C : nat -> nat -> nat) V,
  nnz c = (B * n)%nat ->
  (forall b j, (b < B)%nat -> (j < n)%nat ->
     rows c (b * n + j)%nat = rho b /\ cols c (b * n + j)%nat = C b j /\
     vals c (b * n + j)%nat = V b j) ->
  (forall b, (b < B)%nat -> (rho b < nout)%nat) ->
  (forall b b', (b < B)%nat -> (b' < B)%nat -> rho b = rho b' -> b = b') ->
  (forall o, (o < nout)%nat -> exists b, (b < B)%nat /\ rho b = o) ->
  (forall b j, (b < B)%nat -> (j < n)%nat -> (C b j < nin)%nat) ->
  (forall b j j', (b < B)%nat -> (j < n)%nat -> (j' < n)%nat -> C b j = C b j' -> j = j') ->
  (forall x' b, (b < B)%nat -> f x' (rho b) = rsum n (fun j => V b j * x' (C b j))) ->
  exact_sparse nout nin f x c.
Proof.
  intros B n nout nin f x c rho C V Hn Hc Hr Hi Hs HC HCi Hf.
  assert (Hk : forall k, (k < nnz c)%nat ->
            exists b j, (b < B)%nat /\ (j < n)%nat /\ k = (b * n + j)%nat).
  { intros k Hk. rewrite Hn in Hk. assert (n <> 0)%nat by nia.
    exists (k / n)%nat, (k mod n)%nat. split; [|split].
    - apply Nat.div_lt_upper_bound; lia.
    - now apply Nat.mod_upper_bound.
    - rewrite (Nat.div_mod k n) at 1 by assumption. lia. }
  split; [split|].
  - intros k H. destruct (Hk k H) as (b & j & Hb & Hj & ->).
    destruct (Hc b j Hb Hj) as (-> & -> & _). auto.
  - intros k k' H H'. destruct (Hk k H) as (b & j & Hb & Hj & ->).
    destruct (Hk k' H') as (b' & j' & Hb' & Hj' & ->).
    destruct (Hc b j Hb Hj) as (-> & -> & _).
    destruct (Hc b' j' Hb' Hj') as (-> & -> & _).
    intros E1 E2. apply Hi in E1; try assumption. subst b'.
    apply HCi in E2; try assumption. now subst.
  - apply coo_linear_jacobian.
    + intros k H. destruct (Hk k H) as (b & j & Hb & Hj & ->).
      destruct (Hc b j Hb Hj) as (_ & -> & _). auto.
    + intros x' o Ho. destruct (Hs o Ho) as (b & Hb & <-).
      rewrite Hf by assumption. rewrite Hn, rsum_mul.
      symmetry. rewrite (rsum_single B _ b Hb).
      * apply rsum_ext. intros j Hj. destruct (Hc b j Hb Hj) as (-> & -> & ->).
        now rewrite Nat.eqb_refl.
      * intros b' Hb' Hne. apply rsum_zero. intros j Hj.
        destruct (Hc b' j Hb' Hj) as (-> & _ & _).
        destruct (Nat.eqb_spec (rho b') (rho b)) as [E|E]; [|reflexivity].
        apply Hi in E; try assumption. contradiction.
Qed.

(** The usual case: block [b] is row [b]. *)
Lemma exact_sparse_rows : forall n nout nin f x c (C : nat -> nat -> nat) V,
  nnz c = (nout * n)%nat ->
  (forall b j, (b < nout)%nat -> (j < n)%nat ->
     rows c (b * n + j)%nat = b /\ cols c (b * n + j)%nat = C b j /\
     vals c (b * n + j)%nat = V b j) ->
  (forall b j, (b < nout)%nat -> (j < n)%nat -> (C b j < nin)%nat) ->
  (forall b j j', (b < nout)%nat -> (j < n)%nat -> (j' < n)%nat -> C b j = C b j' -> j = j') ->
  (forall x' b, (b < nout)%nat -> f x' b = rsum n (fun j => V b j * x' (C b j))) ->
  exact_sparse nout nin f x c.
Proof.
  intros n nout nin f x c C V Hn Hc HC HCi Hf.
  apply exact_sparse_blocks with (B := nout) (n := n) (rho := fun b => b) (C := C) (V := V); auto.
  intros o Ho. now exists o.
Qed.

Lemma div_block : forall b n j, (j < n)%nat -> ((b * n + j) / n = b)%nat.
Proof. intros b n j H. rewrite Nat.div_add_l by lia. rewrite Nat.div_small; lia. Qed.

Lemma mod_block : forall b n j, (j < n)%nat -> ((b * n + j) mod n = j)%nat.
Proof. intros b n j H. rewrite Nat.add_comm, Nat.mod_add by lia. now apply Nat.mod_small. Qed.
