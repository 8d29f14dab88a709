(** np.einsum with explicit output subscripts, on labels (one label per
    subscript letter).  Like NdArray.v this models NumPy, a dependency of /repo,
    and is part of the trusted base.  Not modelled: the ellipsis (expanded by
    hand where /repo uses it) and NumPy's broadcasting of axes of extent one. *)
From Coq Require Import Reals Lra Lia Arith List Bool.
From Verif Require Import RSum NdArray.
Import ListNotations.

Notation label := nat (only parsing).

Definition mem (l : label) (ls : list label) : bool := existsb (Nat.eqb l) ls.

(** the list without repetitions, first occurrences kept *)
Fixpoint dedup (ls : list label) : list label :=
  match ls with
  | [] => []
  | l :: ls' => l :: filter (fun x => negb (Nat.eqb x l)) (dedup ls')
  end.

(** the value of label [l] when the labels [ls] stand for the numbers [idx] *)
Definition env_of (ls : list label) (idx : list nat) (l : label) : nat :=
  nth (find_pos ls l) idx 0.

Section Einsum.
Context {A : Type}.
Variables (zero one : A) (add mul : A -> A -> A).

Fixpoint gsum (n : nat) (f : nat -> A) : A :=
  match n with
  | O => zero
  | S m => add (gsum m f) (f m)
  end.

Fixpoint gprod (l : list A) : A :=
  match l with
  | [] => one
  | x :: l' => mul x (gprod l')
  end.

(** an operand: its subscripts and the array *)
Definition operand := (list label * nd A)%type.

(** extent of a label: read off the first operand that carries it *)
Fixpoint dim_of (ops : list operand) (l : label) : nat :=
  match ops with
  | [] => 0
  | (subs, a) :: ops' =>
      if mem l subs then nth (find_pos subs l) (shp a) 0 else dim_of ops' l
  end.

Definition in_labels (ops : list operand) : list label := concat (map fst ops).

(** the labels that are summed over: those missing in the output *)
Definition summed (ops : list operand) (out : list label) : list label :=
  filter (fun l => negb (mem l out)) (dedup (in_labels ops)).

(** one product term, the labels standing for numbers as [e] says *)
Definition term (ops : list operand) (e : label -> nat) : A :=
  gprod (map (fun op => get (snd op) (map e (fst op))) ops).

Definition np_einsum (ops : list operand) (out : list label) : nd A :=
  let ss := summed ops out in
  let sdims := map (dim_of ops) ss in
  of_fun (map (dim_of ops) out)
    (fun idx => gsum (size sdims)
       (fun k => term ops (env_of (out ++ ss) (idx ++ unravel sdims k)))).

(** NumPy accepts the operation: subscripts fit the ranks, extents agree, and
    the output labels are distinct labels of the operands. *)
Definition einsum_ok (ops : list operand) (out : list label) : Prop :=
  (forall op, In op ops -> length (fst op) = length (shp (snd op))) /\
  (forall op j, In op ops -> j < length (fst op) ->
     nth j (shp (snd op)) 0 = dim_of ops (nth j (fst op) 0)) /\
  NoDup out /\ (forall l, In l out -> In l (in_labels ops)).

End Einsum.

Definition r_einsum := np_einsum 0%R 1%R Rplus Rmult.
Definition n_einsum := np_einsum 0 1 Nat.add Nat.mul.

(** ------------------------------------------------------------------ *)

Lemma mem_In : forall l ls, mem l ls = true <-> In l ls.
Proof.
  intros l ls. unfold mem. rewrite existsb_exists. split.
  - intros [x [Hx He]]. apply Nat.eqb_eq in He. now subst.
  - intros H. exists l. split; [assumption|apply Nat.eqb_refl].
Qed.

Lemma mem_not_In : forall l ls, mem l ls = false <-> ~ In l ls.
Proof.
  intros l ls. rewrite <- mem_In. destruct (mem l ls); split; congruence.
Qed.

Lemma find_pos_lt : forall p j, In j p -> find_pos p j < length p.
Proof.
  induction p as [|x p IH]; intros j H; simpl in *; [tauto|].
  destruct (Nat.eqb_spec x j); [lia|]. destruct H as [H|H]; [congruence|].
  specialize (IH _ H). lia.
Qed.

Lemma nth_find_pos : forall p j d, In j p -> nth (find_pos p j) p d = j.
Proof.
  induction p as [|x p IH]; intros j d H; simpl in *; [tauto|].
  destruct (Nat.eqb_spec x j); [assumption|].
  destruct H as [H|H]; [congruence|]. now apply IH.
Qed.

Lemma find_pos_nth : forall p i d,
  NoDup p -> i < length p -> find_pos p (nth i p d) = i.
Proof.
  induction p as [|x p IH]; intros i d Hn Hi; simpl in *; [lia|].
  inversion Hn as [|? ? Hx Hn']; subst. destruct i as [|i].
  - now rewrite Nat.eqb_refl.
  - destruct (Nat.eqb_spec x (nth i p d)) as [E|E].
    + exfalso. apply Hx. rewrite E. apply nth_In. lia.
    + f_equal. apply IH; [assumption|lia].
Qed.

Lemma find_pos_app_l : forall p q j, In j p -> find_pos (p ++ q) j = find_pos p j.
Proof.
  induction p as [|x p IH]; intros q j H; simpl in *; [tauto|].
  destruct (Nat.eqb_spec x j); [reflexivity|]. f_equal. apply IH.
  destruct H; [congruence|assumption].
Qed.

Lemma find_pos_app_r : forall p q j,
  ~ In j p -> find_pos (p ++ q) j = length p + find_pos q j.
Proof.
  induction p as [|x p IH]; intros q j H; simpl in *; [reflexivity|].
  destruct (Nat.eqb_spec x j); [exfalso; apply H; now left|].
  f_equal. apply IH. tauto.
Qed.

Lemma find_pos_notin : forall p j, ~ In j p -> find_pos p j = length p.
Proof.
  induction p as [|x p IH]; intros j H; simpl in *; [reflexivity|].
  destruct (Nat.eqb_spec x j); [exfalso; apply H; now left|].
  f_equal. apply IH. tauto.
Qed.

Lemma env_of_app_l : forall p q i j l,
  length i = length p -> In l p -> env_of (p ++ q) (i ++ j) l = env_of p i l.
Proof.
  intros p q i j l Hl Hin. unfold env_of. rewrite find_pos_app_l by assumption.
  apply app_nth1. rewrite Hl. now apply find_pos_lt.
Qed.

Lemma env_of_app_r : forall p q i j l,
  length i = length p -> ~ In l p -> env_of (p ++ q) (i ++ j) l = env_of q j l.
Proof.
  intros p q i j l Hl Hin. unfold env_of. rewrite find_pos_app_r by assumption.
  rewrite app_nth2 by lia. f_equal. lia.
Qed.

Lemma map_env_of : forall ls idx,
  NoDup ls -> length idx = length ls -> map (env_of ls idx) ls = idx.
Proof.
  intros ls idx Hn Hl. apply nth_ext with (d := 0) (d' := 0).
  - now rewrite map_length.
  - intros i Hi. rewrite map_length in Hi.
    rewrite (nth_indep _ 0 (env_of ls idx 0)) by (now rewrite map_length).
    rewrite map_nth. unfold env_of. now rewrite find_pos_nth.
Qed.

Lemma dedup_In : forall ls l, In l (dedup ls) <-> In l ls.
Proof.
  induction ls as [|x ls IH]; intros l; simpl; [tauto|].
  rewrite filter_In, IH. destruct (Nat.eqb_spec l x); simpl.
  - subst. intuition congruence.
  - intuition congruence.
Qed.

Lemma NoDup_filter : forall (A : Type) (P : A -> bool) l,
  NoDup l -> NoDup (filter P l).
Proof.
  induction l as [|x l IH]; intros H; simpl; [constructor|].
  inversion H; subst. destruct (P x); [|auto].
  constructor; [rewrite filter_In; tauto|auto].
Qed.

Lemma dedup_NoDup : forall ls, NoDup (dedup ls).
Proof.
  induction ls as [|x ls IH]; simpl; constructor.
  - rewrite filter_In. rewrite Nat.eqb_refl. simpl. intuition congruence.
  - now apply NoDup_filter.
Qed.

Lemma filter_comm : forall (A : Type) (P Q : A -> bool) l,
  filter P (filter Q l) = filter Q (filter P l).
Proof.
  induction l as [|x l IH]; simpl; [reflexivity|].
  destruct (P x) eqn:HP, (Q x) eqn:HQ; simpl; rewrite ?HP, ?HQ, ?IH; reflexivity.
Qed.

Lemma filter_dedup : forall P ls, filter P (dedup ls) = dedup (filter P ls).
Proof.
  induction ls as [|x ls IH]; simpl; [reflexivity|].
  destruct (P x) eqn:HP; simpl.
  - f_equal. rewrite <- IH. apply filter_comm.
  - rewrite <- IH. rewrite filter_comm.
    (* x itself is not kept by P, so filtering it out changes nothing *)
    assert (H : forall l, (forall y, In y l -> P y = true) ->
                          filter (fun y => negb (Nat.eqb y x)) l = l).
    { induction l as [|y l IHl]; intros Hl; simpl; [reflexivity|].
      destruct (Nat.eqb_spec y x).
      - subst. rewrite Hl in HP by (now left). discriminate.
      - simpl. f_equal. apply IHl. intros; apply Hl; now right. }
    apply H. intros y Hy. apply filter_In in Hy. tauto.
Qed.

Lemma filter_all : forall (A : Type) (P : A -> bool) l,
  (forall x, In x l -> P x = true) -> filter P l = l.
Proof.
  induction l as [|x l IH]; intros H; simpl; [reflexivity|].
  rewrite H by (now left). f_equal. apply IH. intros; apply H; now right.
Qed.

Lemma filter_none : forall (A : Type) (P : A -> bool) l,
  (forall x, In x l -> P x = false) -> filter P l = [].
Proof.
  induction l as [|x l IH]; intros H; simpl; [reflexivity|].
  rewrite H by (now left). apply IH. intros; apply H; now right.
Qed.

Lemma gsum_R : forall n f, gsum 0%R Rplus n f = rsum n f.
Proof. induction n as [|n IH]; intros f; simpl; [reflexivity|now rewrite IH]. Qed.

(** Without summed labels the einsum is a plain product. *)
Lemma einsum_plain : forall (A : Type) (zero one : A) add mul ops out idx,
  (forall x, add zero x = x) ->
  NoDup out -> (forall l, In l (in_labels ops) -> In l out) ->
  inb (map (dim_of ops) out) idx ->
  get (np_einsum zero one add mul ops out) idx =
  term one mul ops (env_of out idx).
Proof.
  intros A zero one add mul ops out idx H0 Hn Hin Hb.
  assert (Hs : summed ops out = []).
  { unfold summed. apply filter_none. intros l Hl. apply (proj1 (dedup_In _ _)) in Hl.
    apply Hin, (proj2 (mem_In _ _)) in Hl. now rewrite Hl. }
  unfold np_einsum. rewrite get_of_fun by assumption. rewrite Hs. simpl.
  rewrite H0. now rewrite !app_nil_r.
Qed.

Lemma term_ext : forall (A : Type) (one : A) mul ops e e',
  (forall l, In l (in_labels ops) -> e l = e' l) ->
  term one mul ops e = term one mul ops e'.
Proof.
  intros A one mul ops e e' H. unfold term. f_equal. apply map_ext_in.
  intros op Hop. f_equal. apply map_ext_in. intros l Hl. apply H.
  unfold in_labels. apply in_concat. exists (fst op). split; [|assumption].
  now apply in_map.
Qed.
