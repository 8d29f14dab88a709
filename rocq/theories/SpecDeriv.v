(** Derivatives of a whole model: the linear equations between the derivatives of
    all its variables that the declared partials set up. *)
From Coq Require Import Reals Arith List Bool.
From Verif Require Import PyBase SpecGraph Graph GroupApi Run SpecRun RSum NdArray Component JacSpec SpecNorm
  SpecExtremum SpecTotal StdCalls.
Import ListNotations.

(** Values of variables: flattened arrays. *)
Definition values := (nat -> R).

(** the inputs of a component as a function of their number *)
Definition args (l : list values) : nat -> nat -> R := fun q => nth q l (fun _ => 0%R).

(** what a component computes from the list of its inputs *)
Definition computed (c : component) (l : list values) : values := value_of c (args l).

(** the declared partials of [c] at [v], applied to the direction [d]; zero for a
    partial that is not delivered (the theorems show that all are) *)
Definition applied (c : component) (v d : nat -> nat -> R) (o : nat) : R :=
  along (c_ins c)
    (fun q i => match c_partials c (inputs_of (c_ins c) v) q with
                | Some j => jac_entry (size (nth q (c_ins c) [])) j o i
                | None => 0%R
                end) d.

Section Model.
(** the components: of the operation [f], of the assembled output [n], of the key
    [k], of the [k]-th user system (one for each of its outputs) *)
Variables (table asm part : nat -> component) (subs : nat -> list component).
Variables (sub_reads sub_writes : nat -> list name).
(** the shape of every variable *)
Variable shape_of : name -> list nat.
Variable st : api.

Local Notation reads := (comp_reads sub_reads st).
Local Notation writes := (comp_writes sub_writes st).
Local Notation extent x := (size (shape_of x)).

(** the components behind the outputs of object [n], in the order of its outputs *)
Definition parts_of (n : nat) : list component :=
  match abuild st n with
  | NoBuild | BIndep _ => []
  | BExpr f _ => [table f]
  | BPass _ => [pass_through_comp (shape_of (aname st n))]
  | BIndexed => [asm n]
  | BSub k _ => subs k
  | BDecomp _ => map (fun p => part (fst p)) (aparts st n)
  end.

(** declared shapes and variables have the same sizes (OpenMDAO raises otherwise) *)
Definition sizes_agree : Prop :=
  forall n, dep_on (adeps st) root n -> (forall nm, abuild st n <> BIndep nm) ->
    Forall2 (fun x c => size (c_out c) = extent x /\ map size (c_ins c) = map (fun y => extent y) (reads n))
            (writes n) (parts_of n).

(** one pass over the systems [added], for independent values [ind] *)
Definition pass (added : list nat) (ind : nat -> values) (s : store values) : store values :=
  run_model values (fun f => computed (table f)) ind (fun n => computed (asm n))
    (fun k v => computed (part k) [v]) (fun k l => map (fun c => computed c l) (subs k))
    sub_reads sub_writes st added s.

Definition written (x : name) : Prop := exists n, dep_on (adeps st) root n /\ In x (writes n).

(** [T] solves the linear equations set up by the partials at the point [fin],
    for the rates of change [ds] and [dind] of what is given from outside. *)
Record solves (fin : store values) (ds : name -> values) (dind : nat -> values) (T : name -> values) : Prop := {
  sv_given : forall x i, ~ written x -> (i < extent x)%nat -> T x i = ds x i;
  sv_indep : forall n nm i, dep_on (adeps st) root n -> abuild st n = BIndep nm ->
    (i < extent nm)%nat -> T nm i = dind n i;
  sv_comp : forall n j x c o, dep_on (adeps st) root n ->
    nth_error (writes n) j = Some x -> nth_error (parts_of n) j = Some c -> (o < extent x)%nat ->
    T x o = applied c (args (map fin (reads n))) (args (map T (reads n))) o
}.

(** every component obeys the chain rule at the values it gets *)
Definition chained (fin : store values) : Prop :=
  forall n c, dep_on (adeps st) root n -> In c (parts_of n) ->
    exists dom, chain_rule dom c /\ dom (args (map fin (reads n))).

(** what is given from outside depends on a parameter [t], with these rates of
    change at [t0] *)
Definition given_rates (s : R -> store values) (ind : R -> nat -> values) (t0 : R)
           (ds : name -> values) (dind : nat -> values) : Prop :=
  (forall x i, ~ written x -> (i < extent x)%nat -> derivable_pt_lim (fun t => s t x i) t0 (ds x i)) /\
  (forall n nm i, dep_on (adeps st) root n -> abuild st n = BIndep nm -> (i < extent nm)%nat ->
     derivable_pt_lim (fun t => ind t n i) t0 (dind n i)).
End Model.
