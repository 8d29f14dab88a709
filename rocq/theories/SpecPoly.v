(** A constant plus a sum of products of powers. *)
From Coq Require Import Reals Arith List Bool.
From Verif Require Import RSum NdArray SpecElem.
Import ListNotations.
Local Open Scope R_scope.

Definition total (l : list R) : R := fold_right Rplus 0 l.
Definition product (l : list R) : R := fold_right Rmult 1 l.

(** [z] is c * x1**p1 * x2**p2 * ... for the listed inputs and powers. *)
Definition term_rel (val : nat -> R) (t : R * list (nat * R)) (z : R) : Prop :=
  exists fs, Forall2 (fun e f => power_rel (snd e) (val (fst e)) f) (snd t) fs
             /\ z = fst t * product fs.

(** [y] is the constant plus the terms. *)
Definition poly_rel (val : nat -> R) (k : R) (terms : list (R * list (nat * R))) (y : R) : Prop :=
  exists zs, Forall2 (term_rel val) terms zs /\ y = k + total zs.

(** The value of input [nm] at index [idx], when the inputs are called [names]. *)
Fixpoint named (names : list nat) (ins : list (nd R)) (idx : list nat) (nm : nat) : R :=
  match names, ins with
  | n :: names', x :: ins' => if Nat.eqb n nm then get x idx else named names' ins' idx nm
  | _, _ => 0
  end.

(** All inputs and the result have one shape, and entries at the same index are
    related. *)
Definition poly_meaning (s : list nat) (names : list nat) (k : list nat -> R)
           (terms : list (R * list (nat * R))) (ins : list (nd R)) (y : nd R) : Prop :=
  shp y = s /\ Forall (fun x => shp x = s) ins /\ length ins = length names /\
  forall idx, inb s idx -> poly_rel (named names ins idx) (k idx) terms (get y idx).

(** A constant: a number, or an array of the output's shape; its entries. *)
Definition constant_of (s : list nat) (a : nd R) (k : list nat -> R) : Prop :=
  (exists c, a = Nd [] (fun _ => c) /\ forall idx, k idx = c) \/ (shp a = s /\ k = get a).

(** In a term every input is listed once. *)
Definition dicts (terms : list (R * list (nat * R))) : Prop :=
  Forall (fun t => NoDup (map fst (snd t))) terms.

(** [nm] has power [p] in the term: as listed, or zero. *)
Definition has_power (t : R * list (nat * R)) (nm : nat) (p : R) : Prop :=
  In (nm, p) (snd t) \/ (~ In nm (map fst (snd t)) /\ p = 0).

(** Every entry of every input is a point where all its powers are smooth. *)
Definition smooth (s : list nat) (names : list nat) (terms : list (R * list (nat * R)))
           (v : nat -> nat -> R) : Prop :=
  forall q o t p, (q < length names)%nat -> (o < size s)%nat -> In t terms ->
    has_power t (nth q names 0%nat) p -> power_dom p (v q o).

(** All powers are natural numbers. *)
Definition polynomial (terms : list (R * list (nat * R))) : Prop :=
  forall t nm p, In t terms -> In (nm, p) (snd t) -> exists n, p = INR n.
