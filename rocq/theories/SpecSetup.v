(** Vocabulary for statements about Group.setup. *)
From Verif Require Import PyBase SpecGraph Graph.

(** Direct dependencies of a node once the independent variables of the group
    ([indeps]) are added. *)
Definition width (d : nat -> list nat) (indeps : list nat) (n : nat) : nat :=
  length (nodup Nat.eq_dec (d n ++ indeps)).

(** How many direct dependencies of a node, not counting independent variables,
    are direct dependencies of another direct dependency as well. *)
Definition shortcuts (d : nat -> list nat) (indeps : list nat) (n : nat) : nat :=
  length (filter (fun v => negb (mem v indeps) && existsb (fun c => mem v (d c)) (d n)) (d n)).

(** Nodes whose redundant dependencies setup finds in the right order: nodes with
    at most eight direct dependencies, or with hardly any redundant one, or in
    models with many independent variables. *)
Definition tidy (d : nat -> list nat) (indeps : list nat) (n : nat) : Prop :=
  width d indeps n <= 8
  \/ length indeps + shortcuts d indeps n <= 1
  \/ (shortcuts d indeps n <= 1 /\
      ((5 <= length indeps /\ width d indeps n <= 32) \/ (19 <= length indeps /\ width d indeps n <= 128))).

(** What the theorems ask of the state in which setup starts. *)
Record graph_ok (kd : nat -> kind) (root : nat) (d : nat -> list nat) : Prop := {
  go_finite : exists N, finite_graph N d;
  go_acyclic : acyclic d;
  go_simple : simple_graph d;
  go_indep : forall n, kd n = KIndep -> d n = [];
  go_root : kd root <> KIndep;
  go_tidy : forall n, dep_on d root n -> tidy d (filter (fun i => is_indep (kd i)) (d root)) n
}.

(** The objects the group can see have distinct identifiers. *)
Definition uid_distinct (root : nat) (uid : nat -> nat) (d : nat -> list nat) : Prop :=
  forall u v, (u = root \/ dep_on d root u) -> (v = root \/ dep_on d root v) -> uid u = uid v -> u = v.

(** [eventually run r]: with enough fuel (recursion depth) the run ends in [r]. *)
Definition eventually {A} (run : nat -> option A) (r : A) : Prop :=
  exists N, forall fuel, N <= fuel -> run fuel = Some r.
