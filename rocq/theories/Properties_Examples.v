(** Properties of the example scripts (C106).  A class [cls] of the file [base].py:
    [script_path pkg cls (file_of base)] is the script written for it, if any;
    [holds (export pkg found) p] is the class the script [p] holds at the end. *)
From Coq Require Import Ascii String.
From Coq Require Import List.
From Verif Require Import PyBase ExampleNames SpecExamples ExampleProofs.
Import ListNotations.

(** C106 is false: two classes of one file, whose names differ only in case ... *)
Theorem C106_refuted :
  let f := file_of (chars "ex_sum") in
  let c1 := txt "ExampleABC" in let c2 := txt "ExampleAbc" in
  c1 <> c2
  /\ script_path pkg0 c1 f = Some (txt "omtools/examples/valid/ex_sum_abc.py")
  /\ script_path pkg0 c2 f = script_path pkg0 c1 f
  /\ export pkg0 [(f, c1); (f, c2)]
     = [(txt "omtools/examples/valid/ex_sum_abc.py", (f, c2));
        (txt "omtools/examples/valid/ex_sum_abc.py", (f, c1))]
  /\ holds (export pkg0 [(f, c1); (f, c2)]) (txt "omtools/examples/valid/ex_sum_abc.py")
     = Some (f, c2).
Proof. exact same_file_clash. Qed.
Print Assumptions C106_refuted.

(** ... or classes of two files, one of whose names begins the other. *)
Theorem C106_files_refuted :
  let f1 := file_of (chars "ex_einsum") in let f2 := file_of (chars "ex_einsum_new") in
  let c1 := concat [Example_w; chars "New"; chars "Sum"] in
  let c2 := concat [Example_w; chars "Sum"] in
  f1 <> f2
  /\ script_path pkg0 c1 f1 = Some (txt "omtools/examples/valid/ex_einsum_new_sum.py")
  /\ script_path pkg0 c2 f2 = script_path pkg0 c1 f1
  /\ holds (export pkg0 [(f1, c1); (f2, c2)])
       (txt "omtools/examples/valid/ex_einsum_new_sum.py") = Some (f2, c2).
Proof. exact files_clash. Qed.
Print Assumptions C106_files_refuted.

(** Nothing else goes wrong: if no file name followed by an underscore begins another
    and the classes of one file differ in more than case and underscores, every class
    keeps its script. *)
Theorem C106_actual :
  forall pkg (found : list (text * text)),
  (forall b c, In (b, c) found -> plain b) ->
  (forall b1 c1 b2 c2, In (b1, c1) found -> In (b2, c2) found -> b1 <> b2 -> apart b1 b2) ->
  (forall b c1 c2, In (b, c1) found -> In (b, c2) found -> letters c1 = letters c2 -> c1 = c2) ->
  forall b c p, In (b, c) found -> script_path pkg c (file_of b) = Some p ->
  holds (export pkg (map (fun x => (file_of (fst x), snd x)) found)) p = Some (file_of b, c).
Proof. exact every_script_letters. Qed.
Print Assumptions C106_actual.

(** For names in camel case it is enough that they differ, and the script is where it
    belongs. *)
Theorem C106_camel :
  forall pkg (found : list (text * list text)),
  (forall b ws, In (b, ws) found -> plain b /\ Forall camel_word ws) ->
  (forall b1 ws1 b2 ws2, In (b1, ws1) found -> In (b2, ws2) found -> b1 <> b2 -> apart b1 b2) ->
  let disk := export pkg (map (fun p => (file_of (fst p), concat (snd p))) found) in
  forall b rest, rest <> [] ->
  (In (b, Example_w :: rest) found ->
     holds disk (belongs pkg b "valid" rest) = Some (file_of b, concat (Example_w :: rest)))
  /\ (In (b, Error_w :: rest) found ->
     holds disk (belongs pkg b "invalid" rest) = Some (file_of b, concat (Error_w :: rest))).
Proof. exact every_script. Qed.
Print Assumptions C106_camel.

(** Names in camel case become words separated by underscores, and exactly those of at
    least two words that begin with Example or Error get a script. *)
Theorem C106_who :
  forall pkg b ws, plain b -> Forall camel_word ws ->
  camel_to_snake (concat ws) = snake ws
  /\ ((exists rest, ws = Error_w :: rest /\ rest <> []
        /\ script_path pkg (concat ws) (file_of b) = Some (belongs pkg b "invalid" rest))
      \/ (exists rest, ws = Example_w :: rest /\ rest <> []
        /\ script_path pkg (concat ws) (file_of b) = Some (belongs pkg b "valid" rest))
      \/ ((forall rest, rest <> [] -> ws <> Error_w :: rest /\ ws <> Example_w :: rest)
         /\ script_path pkg (concat ws) (file_of b) = None)).
Proof. intros pkg b ws H HW. exact (conj (camel_snake ws HW) (script_camel pkg b ws H HW)). Qed.
Print Assumptions C106_who.

(** Every name keeps its letters, whatever its form. *)
Theorem C106_letters : forall name, letters (camel_to_snake name) = letters name.
Proof. exact letters_kept. Qed.
Print Assumptions C106_letters.

(** A directory that meets the hypotheses of C106_camel and C106_who. *)
Example C106_instance :
  let found := [(chars "ex_einsum_new", [Example_w; chars "Inner"; chars "Tensor"]);
                (chars "ex_einsum_old", [Example_w; chars "Inner"; chars "Tensor"]);
                (chars "ex_einsum_new", [Error_w; chars "Inner"; chars "Tensor"])] in
  (forall b ws, In (b, ws) found -> plain b /\ Forall camel_word ws)
  /\ (forall b1 ws1 b2 ws2, In (b1, ws1) found -> In (b2, ws2) found -> b1 <> b2 -> apart b1 b2)
  /\ map fst (export pkg0 (map (fun p => (file_of (fst p), concat (snd p))) found))
     = [txt "omtools/examples/invalid/ex_einsum_new_inner_tensor.py";
        txt "omtools/examples/valid/ex_einsum_old_inner_tensor.py";
        txt "omtools/examples/valid/ex_einsum_new_inner_tensor.py"].
Proof. exact every_script_instance. Qed.
