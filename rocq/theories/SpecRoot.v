(** How the solution of an implicit component moves with its inputs. *)
From Coq Require Import Reals Arith List.
From Verif Require Import PyBase GroupApi RSum NdArray Implicit SpecImplicit.
Import ListNotations.
Local Open Scope R_scope.

(** [P] holds for every parameter close to [t0] *)
Definition near (t0 : R) (P : R -> Prop) : Prop :=
  exists d, 0 < d /\ forall t, Rabs (t - t0) < d -> P t.

(** [z] is the only zero of [f] between [a] and [b] *)
Definition only_root (f : R -> R) (a b z : R) : Prop :=
  between a b z /\ f z = 0 /\ forall z', between a b z' -> f z' = 0 -> z' = z.

(** [f t z] has at ([t0], [z0]) the partial derivatives [P] in [t] and [D] in [z],
    and moves with them along every straight line *)
Definition line_rates (f : R -> R -> R) (t0 z0 P D : R) : Prop :=
  forall m, derivable_pt_lim (fun t => f t (z0 + m * (t - t0))) t0 (P + D * m).

(** The inputs of the internal problem move with [t].  With the output [o] at [y0]
    when [t = t0], entry [i] of the residual [rn] moves with rate [P i] while the
    output stands still, and [J i j] is its derivative in entry [j] of the output. *)
Definition residual_rates (F : R -> problem) (outputs : name -> nd R) (o rn : name) (s : list nat)
           (y0 : nat -> R) (t0 : R) (P : nat -> R) (J : nat -> nat -> R) : Prop :=
  forall X w, (forall t, shp (X t) = s) -> (forall j, dat (X t0) j = y0 j) ->
    (forall j, (j < size s)%nat -> derivable_pt_lim (fun t => dat (X t) j) t0 (w j)) ->
    forall i, (i < size s)%nat ->
      derivable_pt_lim (fun t => dat (F t (set_out outputs o (X t)) rn) i) t0
        (P i + rsum (size s) (fun j => J i j * w j)).
