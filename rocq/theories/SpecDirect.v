(** What the combinations mean when their options are given directly. *)
From Coq Require Import Reals Arith List Bool.
From Verif Require Import RSum NdArray SpecElem SpecPoly CompDirect.
Import ListNotations.
Local Open Scope R_scope.

(** The names with their numbers that the options describe: a dict, or one name or
    a list of names with one number for all of them or a list of numbers. *)
Inductive given : names_opt -> scalars -> list (nat * R) -> list (nat * R) -> Prop :=
| given_dict : forall n c d, d <> [] -> given n c d d
| given_name : forall n c, given (NStr n) (SNum c) [] [(n, c)]
| given_name1 : forall n c, given (NStr n) (SList [c]) [] [(n, c)]
| given_number : forall l c, given (NList l) (SNum c) [] (map (fun n => (n, c)) l)
| given_lists : forall l cs, length l = length cs -> given (NList l) (SList cs) [] (combine l cs).

Definition weighted_sum (cs xs : list R) : R :=
  total (map (fun e => fst e * snd e) (combine cs xs)).

(** The constant plus coefficient times input, for every entry. *)
Definition linear_meaning (s : list nat) (k : list nat -> R) (cs : list R)
           (ins : list (nd R)) (y : nd R) : Prop :=
  shp y = s /\ length ins = length cs /\ Forall (fun x => shp x = s) ins /\
  forall idx, inb s idx ->
    get y idx = k idx + weighted_sum cs (map (fun x => get x idx) ins).

(** The coefficient times the powers of the inputs, for every entry. *)
Definition power_meaning (s : list nat) (c : R) (ps : list R) (ins : list (nd R)) (y : nd R) : Prop :=
  shp y = s /\ length ins = length ps /\ Forall (fun x => shp x = s) ins /\
  forall idx, inb s idx -> exists fs,
    Forall2 (fun e f => power_rel (fst e) (snd e) f)
            (combine ps (map (fun x => get x idx) ins)) fs /\
    get y idx = c * product fs.

(** Every entry of every input is a point where its power is smooth. *)
Definition powers_smooth (s : list nat) (ps : list R) (v : nat -> nat -> R) : Prop :=
  forall q o, (q < length ps)%nat -> (o < size s)%nat -> power_dom (nth q ps 0) (v q o).

(** The terms given by a matrix of powers, one row for each term and one column
    for each input. *)
Definition matrix_terms (names : list nat) (powers : list (list R)) (coeffs : list R)
  : list (R * list (nat * R)) :=
  combine coeffs (map (combine names) powers).

(** Every entry of every input is a point where the powers of its column are smooth. *)
Definition matrix_smooth (s : list nat) (n : nat) (powers : list (list R)) (v : nat -> nat -> R) : Prop :=
  forall q o row, (q < n)%nat -> (o < size s)%nat -> In row powers -> power_dom (nth q row 0) (v q o).
