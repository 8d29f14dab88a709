(** Names of the example scripts written by omtools/utils/generate_example_scripts.py.
    Texts are lists of ASCII characters (Python identifiers may hold other letters:
    not modelled).  The text of the scripts is not modelled, only which class each
    script holds. *)
From Coq Require Import Ascii String.
From Coq Require Import List Arith Lia Bool.
From Verif Require Import PyBase.
Import ListNotations.
Open Scope nat_scope.

Definition text := list ascii.
Definition txt (s : string) : text := list_ascii_of_string s.

(** The classes [A-Z], [a-z] and [0-9] of re. *)
Definition between (lo hi : nat) (c : ascii) : bool :=
  (lo <=? nat_of_ascii c) && (nat_of_ascii c <=? hi).
Definition is_upper := between 65 90.
Definition is_lower := between 97 122.
Definition is_digit := between 48 57.

(** generate_example_scripts.py L19: [re.sub('(.)([A-Z][a-z]+)', r'\1_\2', name)].
    Matches are found from left to right and do not overlap; '+' is greedy and '.' is
    not a newline.  [inside]: the match before is still taking lower-case letters. *)
Definition newline : ascii := "010"%char.
Fixpoint sub_word (inside : bool) (s : text) {struct s} : text :=
  match s with
  | [] => []
  | c :: t =>
      if inside && is_lower c then c :: sub_word true t
      else match t with
           | u :: ((l :: _) as rest) =>
               if negb (Ascii.eqb c newline) && is_upper u && is_lower l
               then c :: "_"%char :: u :: sub_word true rest
               else c :: sub_word false t
           | _ => c :: sub_word false t
           end
  end.

(** generate_example_scripts.py L16-20: [re.sub('([a-z0-9])([A-Z])', r'\1_\2', ...)]. *)
Fixpoint sub_hump (s : text) : text :=
  match s with
  | [] => []
  | c :: t =>
      match t with
      | u :: t' => if (is_lower c || is_digit c) && is_upper u
                   then c :: "_"%char :: u :: sub_hump t'
                   else c :: sub_hump t
      | [] => [c]
      end
  end.

(** str.lower on ASCII. *)
Definition lower1 (c : ascii) : ascii :=
  if is_upper c then ascii_of_nat (nat_of_ascii c + 32) else c.
Definition lower (s : text) : text := map lower1 s.

(** generate_example_scripts.py L15-20, camel_to_snake. *)
Definition camel_to_snake (name : text) : text :=
  lower (sub_hump (sub_word false name)).

Definition teqb (a b : text) : bool := if list_eq_dec ascii_dec a b then true else false.
Definition starts (p s : text) : bool := teqb (firstn (List.length p) s) p.

(** [path.rsplit('/', 1)[-1]]: what follows the last slash. *)
Fixpoint after_slash (s : text) : text :=
  match s with
  | [] => []
  | c :: t => if Ascii.eqb c "/" && negb (existsb (Ascii.eqb "/"%char) t) then t
              else if existsb (Ascii.eqb "/"%char) t then after_slash t else s
  end.
(** [s[:-k]]. *)
Definition drop_last (k : nat) (s : text) : text := firstn (List.length s - k) s.

Inductive prefix := PNone | PError | PExample.

(** generate_example_scripts.py L55-72, get_example_file_name.  The three results
    (generate or not, file name, prefix) as (file name, prefix), [PNone] when nothing is
    generated.  The second [if] overwrites what the first has set. *)
Definition example_file_name (cls path : text) : text * prefix :=
  let snake := camel_to_snake cls in
  let base := drop_last 3 (after_slash path) in
  let name (p : text) :=
    base ++ txt "_" ++ skipn (List.length p) snake ++ txt ".py" in
  let r := if starts (txt "error_") snake then (name (txt "error_"), PError)
           else ([], PNone) in
  if starts (txt "example_") snake then (name (txt "example_"), PExample) else r.

(** generate_example_scripts.py L77-80, 117-122: the path written to. *)
Definition script_path (pkg cls file : text) : option text :=
  let path := pkg ++ txt "examples/" ++ file in
  match example_file_name cls path with
  | (f, PError) => Some (pkg ++ txt "examples/invalid/" ++ f)
  | (f, PExample) => Some (pkg ++ txt "examples/valid/" ++ f)
  | (_, PNone) => None
  end.

(** generate_example_scripts.py L82-85, 99-106, 122-124: the files ending in '.py' are
    visited in the order os.listdir gives them and the classes of each in the order
    getmembers gives them; opening a script for writing empties it.  [found]: the pairs
    (file, class) in that order.  The result: what each script holds, latest first. *)
Definition ends_py (file : text) : bool :=
  teqb (skipn (List.length file - 3) file) (txt ".py").
Definition export1 (pkg : text) (disk : list (text * (text * text))) (fc : text * text) :=
  let (file, cls) := fc in
  if ends_py file then
    match script_path pkg cls file with
    | Some p => (p, (file, cls)) :: disk
    | None => disk
    end
  else disk.
Definition export (pkg : text) (found : list (text * text)) :=
  fold_left (export1 pkg) found [].
(** What a path holds at the end. *)
Fixpoint holds (disk : list (text * (text * text))) (p : text) : option (text * text) :=
  match disk with
  | [] => None
  | (q, fc) :: rest => if teqb q p then Some fc else holds rest p
  end.
