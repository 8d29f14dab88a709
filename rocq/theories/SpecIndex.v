(** What indexing means. *)
From Coq Require Import Reals Arith List Bool ZArith.
From Verif Require Import RSum NdArray NdIndex Indexing.
Import ListNotations.
Local Open Scope Z_scope.

(** [e] is one of a, a + st, a + 2 st, ... before b *)
Definition reaches (a b st e : Z) : Prop :=
  exists k, 0 <= k /\ e = a + k * st /\ ((0 < st /\ e < b) \/ (st < 0 /\ b < e)).

(** The entry names at least one position of an axis of extent [n], none outside
    it, and nothing is counted from the end. *)
Definition entry_within (n : nat) (k : key1) : Prop :=
  match k with
  | KInt z => 0 <= z < Z.of_nat n
  | KSlice s =>
      let a := or_else (sl_start s) 0 in
      let b := or_else (sl_stop s) (Z.of_nat n) in
      let st := or_else (sl_step s) 1 in
      0 <= b /\ (exists e, reaches a b st e) /\ forall e, reaches a b st e -> 0 <= e < Z.of_nat n
  | _ => False
  end.

Definition key_entries (k : key) : list key1 :=
  match k with KOne k => [k] | KTuple l => l end.

(** one such entry for each axis *)
Definition key_within (s : list nat) (k : key) : Prop :=
  s <> [] /\ Forall2 entry_within s (key_entries k).

(** only integers and slices *)
Definition plain_key (k : key) : Prop :=
  Forall (fun e => match e with KInt _ | KSlice _ => True | _ => False end) (key_entries k).

(** the slice that stands for an entry: an integer i becomes i:i+1 *)
Definition as_slice (k : key1) : slice :=
  match k with
  | KInt z => Slice (Some z) (Some (z + 1)) None
  | KSlice s => s
  | _ => sl_all
  end.

(** [y] is the part of the only input that NumPy selects with these slices *)
Definition selects (k : key) (ins : list (nd R)) (y : nd R) : Prop :=
  exists x y', ins = [x] /\ np_index x (map as_slice (key_entries k)) = Some y' /\
    shp y = shp y' /\ forall idx, inb (shp y) idx -> get y idx = get y' idx.

(** the three numbers of an entry, missing ones filled in; a step that is not
    given is kept apart from a step of one *)
Definition spelled (n : nat) (k : key1) : Z * Z * option Z :=
  match as_slice k with
  | Slice a b st => (or_else a 0, or_else b (Z.of_nat n), st)
  end.

Fixpoint spelled_key (s : list nat) (l : list key1) : list (Z * Z * option Z) :=
  match s, l with
  | n :: s', k :: l' => spelled n k :: spelled_key s' l'
  | _, _ => []
  end.

(** the key selects the first entry of a vector of extent [n] and nothing else *)
Definition only_first (n : nat) (k : key) : Prop :=
  exists (a b : Z) (st : option Z),
    spelled_key (n :: nil) (key_entries k) = (a, b, st) :: nil /\
    forall e, reaches a b (or_else st 1) e <-> e = 0.

(** What is left of a tuple when everything but integers and slices is dropped.
    A slice without an end stops at the extent of the axis whose number is its
    place in the tuple as written; [i] is the place of the first entry. *)
Fixpoint left_over (s : list nat) (i : nat) (l : list key1) : list key1 :=
  match l with
  | [] => []
  | KInt z :: l' => KInt z :: left_over s (S i) l'
  | KSlice (Slice a b st) :: l' =>
      KSlice (Slice a (match b with Some e => Some e | None => option_map Z.of_nat (nth_error s i) end) st)
      :: left_over s (S i) l'
  | _ :: l' => left_over s (S i) l'
  end.

(** every slice stands at a place that is the number of an axis *)
Definition slices_placed (s : list nat) (l : list key1) : Prop :=
  forall i a, nth_error l i = Some (KSlice a) -> (i < length s)%nat.

(** the answers to a list of requests *)
Definition some_accepted (rs : list (option nat)) : Prop := exists e, In (Some e) rs.
