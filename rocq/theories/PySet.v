(** CPython's [set] of small non-negative integers ([Objects/setobject.c]:
    set_add_entry, set_insert_clean, set_table_resize), as far as
    [list(set(ints))] observes it.  Used by [remove_indirect_dependencies]
    (omtools/core/graph.py L25), whose result depends on the iteration order. *)
From Verif Require Import PyBase.

(** A table is a list of slots whose length is a power of two, at least 8. *)
Definition table := list (option nat).

Definition slot (t : table) (i : nat) : option nat :=
  match nth_error t i with Some s => s | None => None end.

Fixpoint set_slot (t : table) (i : nat) (v : nat) : table :=
  match t, i with
  | [], _ => []
  | _ :: r, 0 => Some v :: r
  | s :: r, S j => s :: set_slot r j v
  end.

(** Linear part of the probe sequence: slots i, i+1, ..., i+n.
    [None]: all occupied by other keys; [Some (true, j)]: key found at j;
    [Some (false, j)]: free slot j. *)
Fixpoint linear (t : table) (key i n : nat) : option (bool * nat) :=
  match slot t i with
  | None => Some (false, i)
  | Some k => if Nat.eqb k key then Some (true, i)
              else match n with 0 => None | S m => linear t key (S i) m end
  end.

(** Probe loop: LINEAR_PROBES = 9, PERTURB_SHIFT = 5.  [fuel] bounds the number
    of rounds; a free slot always exists, the loop of the C code terminates. *)
Fixpoint probe (fuel : nat) (t : table) (key i perturb : nat) : option (bool * nat) :=
  match fuel with
  | 0 => None
  | S f =>
    let mask := length t - 1 in
    let probes := if Nat.leb (i + 9) mask then 9 else 0 in
    match linear t key i probes with
    | Some r => Some r
    | None => let perturb' := perturb / 32 in
              probe f t key ((i * 5 + 1 + perturb') mod length t) perturb'
    end
  end.

Definition insert_raw (t : table) (key : nat) : table * bool :=
  match probe (64 + length t) t key (key mod length t) key with
  | Some (true, _) => (t, false)
  | Some (false, j) => (set_slot t j key, true)
  | None => (t, false)
  end.

Fixpoint elements (t : table) : list nat :=
  match t with
  | [] => []
  | Some k :: r => k :: elements r
  | None :: r => elements r
  end.

Fixpoint grow (fuel minused size : nat) : nat :=
  match fuel with
  | 0 => size
  | S f => if Nat.leb size minused then grow f minused (2 * size) else size
  end.

(** set_table_resize(so, used*4), used <= 50000 *)
Definition resize (t : table) : table :=
  let els := elements t in
  let size := grow (4 * length els) (4 * length els) 8 in
  fold_left (fun t' k => fst (insert_raw t' k)) els (repeat None size).

(** set_add_key: insert, then resize when fill*5 >= mask*3 *)
Definition set_add (t : table) (key : nat) : table :=
  let '(t', fresh) := insert_raw t key in
  if fresh then
    if Nat.ltb (5 * length (elements t')) (3 * (length t' - 1)) then t'
    else resize t'
  else t'.

(** [list(set(l))] *)
Definition set_list (l : list nat) : list nat :=
  elements (fold_left set_add l (repeat None 8)).

(** CPython facts everybody can check in an interpreter. *)
Example set_list_ex1 : set_list [3; 1; 2; 1] = [1; 2; 3].
Proof. reflexivity. Qed.
Example set_list_ex2 : set_list [1; 8] = [8; 1].
Proof. reflexivity. Qed.
Example set_list_ex3 : set_list [9; 8; 1; 0; 17] = [0; 1; 8; 9; 17].
Proof. reflexivity. Qed.
