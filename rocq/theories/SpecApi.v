(** Vocabulary for statements about histories of Group calls. *)
From Verif Require Import PyBase SpecGraph SpecSetup Graph GroupApi.

(** Call number [i] of the history was [o] and returned object [m]. *)
Definition returned (h : list op) (rs : list (res nat)) (i : nat) (o : op) (m : nat) : Prop :=
  nth_error h i = Some o /\ nth_error rs i = Some (Ok m).

Definition created_output h rs out : Prop := exists i s, returned h rs i (CreateOutput s) out.
Definition given_value h rs i out : Prop :=
  (exists e m, returned h rs i (Define out e) m) \/ (exists e k m, returned h rs i (Setitem out e k) m).

(** The graph can be scheduled: no cycle, tidy nodes, distinct generated
    identifiers. *)
Definition all_tidy (st : api) : Prop :=
  forall n, dep_on (adeps st) root n ->
    tidy (adeps st) (filter (fun i => is_indep (akind st i)) (adeps st root)) n.
Definition schedulable (uid : nat -> nat) (st : api) : Prop :=
  acyclic (adeps st) /\ all_tidy st /\ uid_distinct root uid (adeps st).

(** No two built systems get the same name. *)
Definition labels_distinct (st : api) : Prop :=
  forall u v, dep_on (adeps st) root u -> dep_on (adeps st) root v ->
    has_build st u = true -> has_build st v = true -> label st u = label st v -> u = v.

(** Objects whose value the component of [n] is meant to read. *)
Inductive uses (st : api) (n : nat) : nat -> Prop :=
| uses_arg f args a : abuild st n = BExpr f args -> In a args -> uses st n a
| uses_def e : abuild st n = BPass e -> uses st n e
| uses_whole x : abuild st n = BDecomp x -> uses st n x.
Definition uses_indexed (st : api) (n a : nat) : Prop :=
  abuild st n = BIndexed /\ exists nm, In (nm, a) (atgt st n).

(** An object that carries a value: not the root, a subsystem or a decomposition. *)
Definition value_object (st : api) (a : nat) : Prop :=
  0 < a /\ a < anext st /\ akind st a <> KSubsystem /\ forall x, adecomp st x <> Some a.

(** No indexed assignment makes an output depend on itself. *)
Definition no_self_assign (st : api) (o : op) : Prop :=
  match o with Setitem out e _ => e <> out /\ ~ dep_on (adeps st) e out | _ => True end.
(** Moreover no output is defined in terms of itself. *)
Definition no_self_reference (st : api) (o : op) : Prop :=
  match o with Setitem out e _ | Define out e => e <> out /\ ~ dep_on (adeps st) e out | _ => True end.

(** The only edges a call can remove: those into the output being defined, from
    nodes below that output or below the defining expression. *)
Definition lost (st : api) (o : op) (n v : nat) : Prop :=
  exists e, o = Define v e /\
    (n = v \/ n = e \/ dep_on (adeps st) v n \/ dep_on (adeps st) e n).

Section History.
Variable O : oracle.

(** The condition holds of every call of the history, in the state it is made in. *)
Fixpoint throughout (P : api -> op -> Prop) (fuel : nat) (st : api) (h : list op) : Prop :=
  match h with
  | [] => True
  | o :: r => P st o /\ forall st' x, step O fuel st o = Some (st', x) -> throughout P fuel st' r
  end.

(** Edges a history can remove. *)
Inductive lost_in (fuel : nat) : api -> list op -> nat -> nat -> Prop :=
| lost_now st o h n v : lost st o n v -> lost_in fuel st (o :: h) n v
| lost_later st o h st' x n v : step O fuel st o = Some (st', x) -> lost_in fuel st' h n v ->
    lost_in fuel st (o :: h) n v.

End History.
