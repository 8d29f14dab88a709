(** What the names of example classes and scripts should be. *)
From Coq Require Import Ascii String.
From Coq Require Import List.
Import ListNotations.

Definition chars (s : string) : list ascii := list_ascii_of_string s.
Definition capitals := chars "ABCDEFGHIJKLMNOPQRSTUVWXYZ".
Definition smalls := chars "abcdefghijklmnopqrstuvwxyz".
Definition digits := chars "0123456789".

(** The small letter of a capital; other characters stay. *)
Definition small (c : ascii) : ascii :=
  match find (fun p => Ascii.eqb (fst p) c) (combine capitals smalls) with
  | Some p => snd p
  | None => c
  end.

(** The characters of a name, ignoring case and underscores. *)
Definition letters (s : list ascii) : list ascii :=
  map small (filter (fun c => negb (Ascii.eqb c "_")) s).

(** A word of a name in camel case: a capital, then one or more small letters and
    digits. *)
Definition camel_word (w : list ascii) : Prop :=
  exists c t, w = c :: t /\ In c capitals /\ t <> []
    /\ forall x, In x t -> In x smalls \/ In x digits.

(** The words in small letters, with underscores between them. *)
Fixpoint snake (ws : list (list ascii)) : list ascii :=
  match ws with
  | [] => []
  | [w] => map small w
  | w :: rest => map small w ++ chars "_" ++ snake rest
  end.

(** A Python file [base].py in the directory of the examples. *)
Definition file_of (base : list ascii) : list ascii := base ++ chars ".py".
Definition plain (base : list ascii) : Prop := ~ In "/"%char base.

(** Neither name followed by an underscore begins the other. *)
Definition apart (b1 b2 : list ascii) : Prop :=
  forall t, b1 ++ chars "_" ++ t <> b2 /\ b2 ++ chars "_" ++ t <> b1.

(** The class called [word][rest] of file [base].py belongs in this script. *)
Definition belongs (pkg base : list ascii) (dir : string) (rest : list (list ascii)) :=
  pkg ++ chars "examples/" ++ chars dir ++ chars "/" ++ base ++ chars "_"
    ++ snake rest ++ chars ".py".
