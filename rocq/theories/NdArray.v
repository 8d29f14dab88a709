(** N-dimensional arrays and the NumPy primitives the components use.

    An array is a shape and a row-major data function; only the entries below
    [size shape] are meaningful.  The definitions of this file model NumPy, a
    dependency of /repo, and not code of /repo itself: they are part of the
    trusted base (DESIGN.md section 4).  Multi-indices are lists of naturals. *)
From Coq Require Import Reals Lia Arith List Bool ZArith.
From Verif Require Import RSum.
Import ListNotations.

Notation shape := (list nat) (only parsing).

(** np.prod(shape) *)
Fixpoint size (s : shape) : nat :=
  match s with
  | [] => 1
  | n :: s' => n * size s'
  end.

(** The multi-index [idx] is inside the shape [s]. *)
Fixpoint inb (s : shape) (idx : list nat) : Prop :=
  match s, idx with
  | [], [] => True
  | n :: s', i :: idx' => i < n /\ inb s' idx'
  | _, _ => False
  end.

(** np.ravel_multi_index(idx, dims=s) for one multi-index *)
Fixpoint ravel (s : shape) (idx : list nat) : nat :=
  match s, idx with
  | _ :: s', i :: idx' => i * size s' + ravel s' idx'
  | _, _ => 0
  end.

(** np.unravel_index(k, shape=s) for one flat index *)
Fixpoint unravel (s : shape) (k : nat) : list nat :=
  match s with
  | [] => []
  | _ :: s' => (k / size s') :: unravel s' (k mod size s')
  end.

Record nd (A : Type) := Nd { shp : shape; dat : nat -> A }.
Arguments Nd {A} _ _.
Arguments shp {A} _.
Arguments dat {A} _ _.

Section Prims.
Context {A : Type}.

(** a[i0, i1, ...] *)
Definition get (a : nd A) (idx : list nat) : A := dat a (ravel (shp a) idx).

(** The array of shape [s] with entry [f idx] at [idx]. *)
Definition of_fun (s : shape) (f : list nat -> A) : nd A :=
  Nd s (fun k => f (unravel s k)).

(** a.reshape(s): same row-major data (NumPy raises unless the sizes agree) *)
Definition np_reshape (a : nd A) (s : shape) : nd A := Nd s (dat a).

(** a.flatten() *)
Definition np_flatten (a : nd A) : nd A := Nd [size (shp a)] (dat a).

(** np.full(n, c), np.ones(n), np.zeros(n, int) on one axis *)
Definition np_full1 (n : nat) (c : A) : nd A := Nd [n] (fun _ => c).

(** np.repeat(a, k): every element [k] times, result one-dimensional *)
Definition np_repeat (a : nd A) (k : nat) : nd A :=
  Nd [size (shp a) * k] (fun i => dat a (i / k)).

(** np.tile(a, k), [k] an int: the last axis is repeated [k] times
    (a zero-dimensional array becomes one-dimensional) *)
Fixpoint tile_last (s : shape) (k : nat) : shape :=
  match s with
  | [] => [k]
  | [n] => [n * k]
  | n :: s' => n :: tile_last s' k
  end.

Definition last_extent (s : shape) : nat := last s 1.

Definition np_tile (a : nd A) (k : nat) : nd A :=
  let m := last_extent (shp a) in
  Nd (tile_last (shp a) k)
     (fun i => dat a ((i / (m * k)) * m + (i mod (m * k)) mod m)).

(** np.transpose(a): all axes reversed *)
Definition np_transpose (a : nd A) : nd A :=
  of_fun (rev (shp a)) (fun idx => get a (rev idx)).

(** position of [j] in the list [p] *)
Fixpoint find_pos (p : list nat) (j : nat) : nat :=
  match p with
  | [] => 0
  | x :: p' => if Nat.eqb x j then 0 else S (find_pos p' j)
  end.

(** np.transpose(a, p): axis [i] of the result is axis [p[i]] of [a], so the
    entry at [idx] of the result is the entry of [a] whose index has
    [idx[i]] on axis [p[i]] *)
Definition np_transpose_axes (a : nd A) (p : list nat) : nd A :=
  of_fun (map (fun j => nth j (shp a) 0) p)
         (fun idx => get a (map (fun j => nth (find_pos p j) idx 0)
                                (seq 0 (length (shp a))))).

Definition np_map {B : Type} (f : A -> B) (a : nd A) : nd B :=
  Nd (shp a) (fun k => f (dat a k)).

End Prims.

(** np.arange(n) *)
Definition np_arange (n : nat) : nd nat := Nd [n] (fun k => k).

(** elementwise binary operation on arrays of equal shape *)
Definition np_map2 {A B C : Type} (f : A -> B -> C) (a : nd A) (b : nd B) : nd C :=
  Nd (shp a) (fun k => f (dat a k) (dat b k)).

(** np.delete(l, axes) on a list: the entries whose position is not in [axes],
    starting the count at [i] *)
Fixpoint delete_from {A : Type} (i : nat) (axes : list nat) (l : list A) : list A :=
  match l with
  | [] => []
  | x :: l' =>
      if existsb (Nat.eqb i) axes then delete_from (S i) axes l'
      else x :: delete_from (S i) axes l'
  end.

Definition delete {A : Type} (axes : list nat) (l : list A) : list A :=
  delete_from 0 axes l.

(** A (possibly negative) axis number of an array of rank [r]; NumPy raises when
    it is out of range. *)
Definition norm_axis (r : nat) (ax : Z) : option nat :=
  if ((0 <=? ax) && (ax <? Z.of_nat r))%Z then Some (Z.to_nat ax)
  else if ((- Z.of_nat r <=? ax) && (ax <? 0))%Z then Some (Z.to_nat (ax + Z.of_nat r))
  else None.

Fixpoint norm_axes (r : nat) (axes : list Z) : option (list nat) :=
  match axes with
  | [] => Some []
  | ax :: axes' =>
      match norm_axis r ax, norm_axes r axes' with
      | Some a, Some l => Some (a :: l)
      | _, _ => None
      end
  end.

(** The sum over all indices of the axes in [axes] (counted from [i]), the
    other axes being read off [idx]: the nested loops of np.sum. *)
Fixpoint axis_sum (i : nat) (axes : list nat) (s : shape) (f : list nat -> R)
         (idx : list nat) : R :=
  match s with
  | [] => f []
  | n :: s' =>
      if existsb (Nat.eqb i) axes
      then rsum n (fun j => axis_sum (S i) axes s' (fun r => f (j :: r)) idx)
      else axis_sum (S i) axes s' (fun r => f (hd 0 idx :: r)) (tl idx)
  end.

(** np.sum(a, axis=axes) with non-negative, distinct axes *)
Definition np_sum_axes (a : nd R) (axes : list nat) : nd R :=
  of_fun (delete axes (shp a)) (fun idx => axis_sum 0 axes (shp a) (get a) idx).

(** np.sum(a): a zero-dimensional array *)
Definition np_sum (a : nd R) : nd R :=
  Nd [] (fun _ => rsum (size (shp a)) (dat a)).

(** ------------------------------------------------------------------ *)
(** Facts about the index arithmetic *)

Lemma inb_length : forall s idx, inb s idx -> length idx = length s.
Proof.
  induction s as [|n s IH]; intros [|i idx] H; simpl in *; try tauto.
  f_equal. apply IH. tauto.
Qed.

Lemma inb_size_pos : forall s idx, inb s idx -> 0 < size s.
Proof.
  induction s as [|n s IH]; intros [|i idx] H; simpl in *; try tauto; [lia|].
  destruct H as [H1 H2]. specialize (IH _ H2). nia.
Qed.

Lemma ravel_lt : forall s idx, inb s idx -> ravel s idx < size s.
Proof.
  induction s as [|n s IH]; intros [|i idx] H; simpl in *; try tauto; [lia|].
  destruct H as [H1 H2]. specialize (IH _ H2). nia.
Qed.

Lemma unravel_length : forall s k, length (unravel s k) = length s.
Proof. induction s as [|n s IH]; intros k; simpl; [reflexivity|now rewrite IH]. Qed.

Lemma unravel_inb : forall s k, k < size s -> inb s (unravel s k).
Proof.
  induction s as [|n s IH]; intros k H; simpl in *; [exact I|].
  assert (size s <> 0) by nia.
  split.
  - apply Nat.div_lt_upper_bound; [assumption|]. nia.
  - apply IH. apply Nat.mod_upper_bound. assumption.
Qed.

Lemma ravel_unravel : forall s k, k < size s -> ravel s (unravel s k) = k.
Proof.
  induction s as [|n s IH]; intros k H; simpl in *; [lia|].
  assert (size s <> 0) by nia.
  rewrite IH by (apply Nat.mod_upper_bound; assumption).
  rewrite (Nat.div_mod k (size s)) at 3 by assumption. lia.
Qed.

Lemma unravel_ravel : forall s idx, inb s idx -> unravel s (ravel s idx) = idx.
Proof.
  induction s as [|n s IH]; intros [|i idx] H; simpl in *; try tauto.
  destruct H as [H1 H2]. pose proof (ravel_lt _ _ H2) as Hl.
  assert (size s <> 0) by lia.
  rewrite Nat.div_add_l, (Nat.div_small (ravel s idx)) by assumption.
  rewrite (Nat.add_comm (i * size s)), Nat.mod_add by assumption.
  rewrite Nat.mod_small by assumption. rewrite IH by assumption. f_equal. lia.
Qed.

Lemma ravel_inj : forall s i j, inb s i -> inb s j -> ravel s i = ravel s j -> i = j.
Proof.
  intros s i j Hi Hj H.
  rewrite <- (unravel_ravel s i Hi), <- (unravel_ravel s j Hj). now rewrite H.
Qed.

Lemma unravel_inj : forall s i j,
  i < size s -> j < size s -> unravel s i = unravel s j -> i = j.
Proof.
  intros s i j Hi Hj H.
  rewrite <- (ravel_unravel s i Hi), <- (ravel_unravel s j Hj). now rewrite H.
Qed.

Lemma get_of_fun : forall (A : Type) s (f : list nat -> A) idx,
  inb s idx -> get (of_fun s f) idx = f idx.
Proof. intros. unfold get, of_fun; simpl. now rewrite unravel_ravel. Qed.

Lemma size_app : forall s t, size (s ++ t) = size s * size t.
Proof.
  induction s as [|n s IH]; intros t; simpl; [lia|]. rewrite IH. nia.
Qed.

Lemma size_rev : forall s, size (rev s) = size s.
Proof.
  induction s as [|n s IH]; simpl; [reflexivity|].
  rewrite size_app, IH. simpl. nia.
Qed.

Lemma inb_app : forall s t i j,
  length i = length s -> (inb (s ++ t) (i ++ j) <-> inb s i /\ inb t j).
Proof.
  induction s as [|n s IH]; intros t [|x i] j H; simpl in *; try discriminate.
  - tauto.
  - rewrite IH by lia. tauto.
Qed.

Lemma ravel_app : forall s t i j,
  length i = length s ->
  ravel (s ++ t) (i ++ j) = ravel s i * size t + ravel t j.
Proof.
  induction s as [|n s IH]; intros t [|x i] j H; simpl in *; try discriminate.
  - reflexivity.
  - rewrite IH by lia. rewrite size_app. nia.
Qed.

Lemma inb_nth : forall s idx,
  inb s idx <-> length idx = length s /\
                forall j, j < length s -> nth j idx 0 < nth j s 0.
Proof.
  induction s as [|n s IH]; intros [|i idx]; simpl.
  - split; [intros _; split; [reflexivity|lia]|tauto].
  - split; [tauto|intros [H _]; discriminate].
  - split; [tauto|intros [H _]; discriminate].
  - rewrite IH. split.
    + intros [H1 [H2 H3]]. split; [lia|]. intros [|j] Hj; [assumption|].
      apply H3. lia.
    + intros [H1 H2]. split; [apply (H2 0); lia|]. split; [lia|].
      intros j Hj. apply (H2 (S j)). lia.
Qed.

Lemma inb_rev : forall s idx, inb s idx -> inb (rev s) (rev idx).
Proof.
  induction s as [|n s IH]; intros [|i idx] H; simpl in *; try tauto.
  destruct H as [H1 H2]. apply inb_app.
  - rewrite !rev_length. now apply inb_length.
  - split; [now apply IH|simpl; tauto].
Qed.
