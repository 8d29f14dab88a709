(** Specification vocabulary for dependency graphs (independent of the model).
    A graph is given by the list of direct dependencies of each node. *)
From Coq Require Import List Arith.
Import ListNotations.

(** [dep_on d u v]: u depends, directly or transitively, on v. *)
Inductive dep_on (d : nat -> list nat) : nat -> nat -> Prop :=
| dep_direct : forall u v, In v (d u) -> dep_on d u v
| dep_step : forall u w v, In w (d u) -> dep_on d w v -> dep_on d u v.

Definition acyclic (d : nat -> list nat) : Prop := forall n, ~ dep_on d n n.

(** Only the first [N] objects have or are dependencies. *)
Definition finite_graph (N : nat) (d : nat -> list nat) : Prop :=
  forall u v, In v (d u) -> u < N /\ v < N.

(** [before l a b]: some occurrence of a precedes some occurrence of b in l. *)
Definition before (l : list nat) (a b : nat) : Prop :=
  exists l1 l2 l3, l = l1 ++ a :: l2 ++ b :: l3.

(** No direct dependency is listed twice (the lists are made from sets). *)
Definition simple_graph (d : nat -> list nat) : Prop := forall n, NoDup (d n).

(** [valid_order d root l]: the list schedules exactly the nodes that [root]
    depends on, each once, everything after what it depends on. *)
Definition valid_order (d : nat -> list nat) (root : nat) (l : list nat) : Prop :=
  NoDup l
  /\ (forall n, In n l <-> dep_on d root n)
  /\ (forall u v, In u l -> dep_on d u v -> before l v u).
