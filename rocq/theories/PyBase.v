(** Python primitives shared by the whole model. *)
From Coq Require Export List Arith ZArith Lia Bool Permutation.
Export ListNotations.

(** Python exceptions that the modelled code can raise (as values). *)
Inductive exn :=
| ValueError | TypeError | KeyError | IndexError | RuntimeError
| AttributeError | RecursionError | SystemExit | PlainException
| NameError.

(** Result of a Python call: a value, or a raised exception. *)
Inductive res (A : Type) :=
| Ok (a : A)
| Raise (e : exn).
Arguments Ok {A} a.
Arguments Raise {A} e.

Definition bind {A B} (x : res A) (f : A -> res B) : res B :=
  match x with Ok a => f a | Raise e => Raise e end.
Notation "'do' x <- a ;; b" := (bind a (fun x => b))
  (at level 200, x pattern, a at level 100, b at level 200).

Definition is_ok {A} (x : res A) : bool :=
  match x with Ok _ => true | Raise _ => false end.

(** Left-to-right evaluation of a list of calls (a Python comprehension whose
    element expression may raise). *)
Fixpoint mapM {A B} (f : A -> res B) (l : list A) : res (list B) :=
  match l with
  | [] => Ok []
  | x :: r => do y <- f x ;; do ys <- mapM f r ;; Ok (y :: ys)
  end.

(** Functional update of an attribute of an object. *)
Definition upd {A} (f : nat -> A) (k : nat) (v : A) : nat -> A :=
  fun n => if Nat.eqb n k then v else f n.

Lemma upd_same {A} (f : nat -> A) k v : upd f k v k = v.
Proof. unfold upd. now rewrite Nat.eqb_refl. Qed.
Lemma upd_other {A} (f : nat -> A) k v n : n <> k -> upd f k v n = f n.
Proof. intros H. unfold upd. destruct (Nat.eqb_spec n k); congruence. Qed.

(** [list(set(objs))]: CPython hashes plain objects by address, so the order of
    the resulting list is arbitrary and may differ at every call.  An oracle
    answers the [n]-th such call of an execution by any duplicate-free list of
    the same elements. *)
Record oracle := {
  ord :> nat -> list nat -> list nat;
  ord_nodup : forall n l, NoDup (ord n l);
  ord_in : forall n l x, In x (ord n l) <-> In x l
}.

(** The oracle that keeps first occurrences in reverse-insertion order; used
    only for executable examples. *)
Definition nodup_oracle : oracle.
Proof.
  refine {| ord := fun _ l => nodup Nat.eq_dec l |}.
  - intros; apply NoDup_nodup.
  - intros; apply nodup_In.
Defined.

(** Another oracle: the reversed listing. *)
Definition rev_oracle : oracle.
Proof.
  refine {| ord := fun _ l => rev (nodup Nat.eq_dec l) |}.
  - intros; apply NoDup_rev, NoDup_nodup.
  - intros; rewrite <- in_rev; apply nodup_In.
Defined.

(** Index of the first occurrence (Python: loop with [is]). *)
Fixpoint index_of (x : nat) (l : list nat) : option nat :=
  match l with
  | [] => None
  | y :: r => if Nat.eqb y x then Some 0
              else match index_of x r with Some i => Some (S i) | None => None end
  end.

(** [l.remove(l[i])] when all elements are distinct / in general: removes the
    first element equal to [x]. *)
Fixpoint remove_first (x : nat) (l : list nat) : list nat :=
  match l with
  | [] => []
  | y :: r => if Nat.eqb y x then r else y :: remove_first x r
  end.

Definition mem (x : nat) (l : list nat) : bool := existsb (Nat.eqb x) l.

Lemma mem_In x l : mem x l = true <-> In x l.
Proof.
  unfold mem. rewrite existsb_exists. split.
  - intros [y [Hy E]]. apply Nat.eqb_eq in E. now subst.
  - intros H. exists x. now rewrite Nat.eqb_refl.
Qed.

(** Python [range(start, stop, step)] over Z ([step <> 0]). *)
Definition range_len (start stop step : Z) : nat :=
  if (0 <? step)%Z then Z.to_nat ((stop - start + step - 1) / step)
  else if (step <? 0)%Z then Z.to_nat ((start - stop - step - 1) / (- step))
  else 0.

Definition py_range (start stop step : Z) : list Z :=
  map (fun k => (start + Z.of_nat k * step)%Z) (seq 0 (range_len start stop step)).

(** Split conjunctions only (plain [repeat split] also unfolds). *)
Ltac splits := repeat match goal with |- _ /\ _ => split end.
