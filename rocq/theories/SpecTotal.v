(** Derivatives along a curve of inputs: what the chain rule of a component is. *)
From Coq Require Import Reals Arith List Bool.
From Verif Require Import RSum NdArray Component JacSpec SpecNorm SpecExtremum.
Import ListNotations.
Local Open Scope R_scope.

(** Every input entry of the curve [g] has the derivative given by [d] at [t0]. *)
Definition moves (ss : list (list nat)) (g : R -> nat -> nat -> R) (t0 : R) (d : nat -> nat -> R) : Prop :=
  forall q i, (q < length ss)%nat -> (i < size (nth q ss []))%nat ->
    derivable_pt_lim (fun t => g t q i) t0 (d q i).

(** A row of numbers, one per input entry, applied to a direction. *)
Definition along (ss : list (list nat)) (l d : nat -> nat -> R) : R :=
  rsum (length ss) (fun q => rsum (size (nth q ss [])) (fun i => l q i * d q i)).

(** However the inputs move through [dom], every output entry moves with the
    declared partials applied to the movement of the inputs. *)
Definition chain_rule (dom : (nat -> nat -> R) -> Prop) (c : component) : Prop :=
  forall g d t0, moves (c_ins c) g t0 d -> dom (g t0) ->
  exists js : nat -> jac,
    (forall q, (q < length (c_ins c))%nat -> c_partials c (inputs_of (c_ins c) (g t0)) q = Some (js q)) /\
    forall o, (o < size (c_out c))%nat ->
      derivable_pt_lim (fun t => value_of c (g t) o) t0
        (along (c_ins c) (fun q i => jac_entry (size (nth q (c_ins c) [])) (js q) o i) d).

(** Inputs that move continuously stay in [dom] for a while. *)
Definition stays (ss : list (list nat)) (dom : (nat -> nat -> R) -> Prop) : Prop :=
  forall (g : R -> nat -> nat -> R) t0, dom (g t0) ->
    (forall q i, (q < length ss)%nat -> (i < size (nth q ss []))%nat ->
       continuity_pt (fun t => g t q i) t0) ->
    exists e, 0 < e /\ forall t, Rabs (t - t0) < e -> dom (g t).

(** At most one array of the declared shape is what the operation is meant to
    compute. *)
Definition determined (dom : (nat -> nat -> R) -> Prop) (c : component) (meaning : list (nd R) -> nd R -> Prop) : Prop :=
  forall v y y' o, dom v -> shp y = c_out c -> shp y' = c_out c ->
    meaning (inputs_of (c_ins c) v) y -> meaning (inputs_of (c_ins c) v) y' ->
    (o < size (c_out c))%nat -> dat y o = dat y' o.
