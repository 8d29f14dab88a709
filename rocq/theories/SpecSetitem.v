(** What indexed assignment means. *)
From Coq Require Import Reals Arith List Bool ZArith.
From Verif Require Import RSum NdArray NdIndex Component Indexing SpecIndex Setitem.
Import ListNotations.
Local Open Scope Z_scope.

(** a stop below zero counts from the end of an axis of extent [n] *)
Definition from_end (n : nat) (k : key1) : key1 :=
  match k with
  | KSlice (Slice a (Some b) st) =>
      if b <? 0 then KSlice (Slice a (Some (Z.of_nat n + b)) st) else k
  | _ => k
  end.

(** every entry names at least one position of its axis and none outside it *)
Definition assign_within (s : list nat) (l : list key1) : Prop :=
  s <> [] /\ Forall2 (fun n k => entry_within n (from_end n k)) s l.

(** a tuple, or for an array of one axis also a single entry, not a negative
    integer *)
Definition fitting (s : list nat) (k : key) : Prop :=
  plain_key k /\
  match k with
  | KOne k1 => length s = 1%nat /\ match k1 with KInt z => 0 <= z | _ => True end
  | KTuple _ => True
  end.

(** NumPy's key with i for i:i+1 names this entry of the flattened array *)
Definition names_position (s : list nat) (k : key) (z : nat) : Prop :=
  exists ls idx, index_positions s (map as_slice (key_entries k)) = Some ls /\
    inb (map (@length nat) ls) idx /\ z = ravel s (pick ls idx).

(** the shape NumPy gives the selected part *)
Definition part_shape (s : list nat) (k : key) (sh : list nat) : Prop :=
  exists ls, index_positions s (map as_slice (key_entries k)) = Some ls /\ sh = map (@length nat) ls.

(** the assignments that returned *)
Fixpoint done (l : list assignment) (rs : list answer) : list assignment :=
  match l, rs with
  | a :: l', r :: rs' => match r with Done => a :: done l' rs' | _ => done l' rs' end
  | _, _ => []
  end.

(** the selected part of [y] is [e] *)
Definition holds (y e : nd R) (k : key) : Prop :=
  exists z, np_index y (map as_slice (key_entries k)) = Some z /\
    shp z = shp e /\ forall idx, inb (shp z) idx -> get z idx = get e idx.

(** every part holds its expression and the rest is unchanged *)
Definition assembles (s : list nat) (y0 : nat -> R) (l : list assignment) (ins : list (nd R)) (y : nd R) : Prop :=
  shp y = s /\
  (forall p a, nth_error l p = Some a ->
     exists e, nth_error ins p = Some e /\ holds y e (as_key a)) /\
  (forall z, (z < size s)%nat -> (forall a, In a l -> ~ names_position s (as_key a) z) -> dat y z = y0 z).

(** the assignments that returned or were reported as overlapping *)
Fixpoint recorded (l : list assignment) (rs : list answer) : list assignment :=
  match l, rs with
  | a :: l', r :: rs' => match r with Rejected => recorded l' rs' | _ => a :: recorded l' rs' end
  | _, _ => []
  end.

(** no later assignment of [l] names position [z] *)
Definition last_at (s : list nat) (l : list assignment) (p z : nat) : Prop :=
  forall q b, (p < q)%nat -> nth_error l q = Some b -> ~ names_position s (as_key b) z.

(** each position holds the entry of the last expression assigned to it *)
Definition last_wins (s : list nat) (y0 : nat -> R) (l : list assignment) (ins : list (nd R)) (y : nd R) : Prop :=
  shp y = s /\
  (forall p a ls idx, nth_error l p = Some a ->
     index_positions s (map as_slice (key_entries (as_key a))) = Some ls ->
     inb (map (@length nat) ls) idx -> last_at s l p (ravel s (pick ls idx)) ->
     exists e, nth_error ins p = Some e /\ dat y (ravel s (pick ls idx)) = get e idx) /\
  (forall z, (z < size s)%nat -> (forall a, In a l -> ~ names_position s (as_key a) z) -> dat y z = y0 z).
