(** Which nodes a walk that drops [out] from the lists it walks over gets to see. *)
From Verif Require Import PyBase SpecGraph.

(** [x] is listed right after [out] *)
Definition follows (out x : nat) (l : list nat) : Prop :=
  exists before after, l = before ++ out :: x :: after.

(** [m] can be reached from [n] without going to an entry listed right after [out] *)
Inductive visited (d : nat -> list nat) (out : nat) : nat -> nat -> Prop :=
| v_here : forall n, visited d out n n
| v_next : forall n x m, In x (d n) -> x <> out -> ~ follows out x (d n) ->
    visited d out x m -> visited d out n m.

(** every node that leads to [out] is used by one node only *)
Definition used_once (d : nat -> list nat) (out : nat) : Prop :=
  forall u u' v, In v (d u) -> In v (d u') -> dep_on d v out -> u = u'.
