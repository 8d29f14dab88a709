(** What einsum means. *)
From Coq Require Import Reals Arith List Bool.
From Verif Require Import RSum NdArray.
Import ListNotations.
Local Open Scope R_scope.

(** An assignment gives every subscript letter an index. *)
Definition assignment := nat -> nat.
Definition assign (e : assignment) (l i : nat) : assignment :=
  fun l' => if Nat.eqb l' l then i else e l'.

(** The sum of [f] over all values of the letters [ls], letter [l] running below
    [ext l]. *)
Fixpoint sum_letters (ls : list nat) (ext : nat -> nat) (e : assignment)
         (f : assignment -> R) : R :=
  match ls with
  | [] => f e
  | l :: ls' => rsum (ext l) (fun i => sum_letters ls' ext (assign e l i) f)
  end.

(** The product of the operands' entries. *)
Fixpoint product (subs : list (list nat)) (xs : list (nd R)) (e : assignment) : R :=
  match subs, xs with
  | s :: subs', x :: xs' => get x (map e s) * product subs' xs' e
  | _, _ => 1
  end.

(** [y] is the Einstein sum of the arrays [xs] with subscripts [subs], for output
    subscripts [out]: the letters missing in [out] are summed, in any order.  A
    full contraction is an array of shape (1,). *)
Definition einstein_sum (subs : list (list nat)) (out : list nat) (ext : nat -> nat)
           (xs : list (nd R)) (y : nd R) : Prop :=
  map shp xs = map (map ext) subs /\
  shp y = (match out with [] => [1%nat] | _ => map ext out end) /\
  forall e ls,
    (forall l, In l out -> (e l < ext l)%nat) ->
    NoDup ls ->
    (forall l, In l ls <-> In l (concat subs) /\ ~ In l out) ->
    get y (match out with [] => [0%nat] | _ => map e out end)
    = sum_letters ls ext e (product subs xs).

(** The operands of an einsum whose operand list names the arrays [ins] by their
    position in the list [args] of distinct arguments. *)
Definition operands_named (args names : list nat) (ins xs : list (nd R)) : Prop :=
  Forall2 (fun n x => exists k, nth_error args k = Some n /\ nth_error ins k = Some x) names xs.

(** The component computes the Einstein sum of its operands. *)
Definition einsum_meaning (subs : list (list nat)) (out : list nat) (ext : nat -> nat)
           (args names : list nat) (ins : list (nd R)) (y : nd R) : Prop :=
  exists xs, operands_named args names ins xs /\ einstein_sum subs out ext xs y.

(** Operand [m] shares a letter with the output at every place where it stands. *)
Definition keeps (subs : list (list nat)) (out names : list nat) (m : nat) : Prop :=
  forall j, (j < length names)%nat -> nth j names 0%nat = m ->
    exists l, In l (nth j subs []) /\ In l out.

(** Every operand that occurs again does so after all operands have occurred. *)
Definition repetitions_last (names : list nat) : Prop :=
  exists ds rs, names = ds ++ rs /\ NoDup ds /\ incl rs ds.

(** ... and those that share letters with the output at every place come first. *)
Definition kept_first (subs : list (list nat)) (out names : list nat) : Prop :=
  exists ds rs, names = ds ++ rs /\ NoDup ds /\ incl rs ds /\
    forall q q', (q < q')%nat -> (q' < length ds)%nat ->
      keeps subs out names (nth q' ds 0%nat) -> keeps subs out names (nth q ds 0%nat).
