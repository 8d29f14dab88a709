(** Model of omtools/utils/gen_hex_name.py. *)
From Verif Require Import PyBase.
From Coq Require Import Ascii String.
Open Scope Z_scope.

(** gen_hex_name.py L17: the 63 characters. *)
Definition char_set : list ascii :=
  list_ascii_of_string "0123456789abcdefghijklmnopqrstuvwxyzABCDEFGHIJKLMNOPQRSTUVWXYZ_".

(** gen_hex_name.py L18: base = len(char_set) *)
Definition base : Z := Z.of_nat (List.length char_set).

(** Round an exact non-negative integer to the nearest IEEE double
    (53 significant bits, ties to even).  Exponent overflow (>= 2^1024, where
    Python raises OverflowError) is not modelled. *)
Definition round53 (z : Z) : Z :=
  if z <? 2 ^ 53 then z
  else
    let e := Z.log2 z - 52 in
    let m := z / 2 ^ e in
    let r := z mod 2 ^ e in
    let h := 2 ^ (e - 1) in
    let up := (h <? r) || ((r =? h) && Z.odd m) in
    (if up then m + 1 else m) * 2 ^ e.

(** Python [int(a / b)] for a non-negative multiple [a] of [b]: the true
    quotient rounded to a double, then truncated (a rounded integer is an
    integer).  gen_hex_name.py L28 is the only use, where [b] divides [a]. *)
Definition int_truediv (a b : Z) : Z := round53 (a / b).

(** The [while] loop, gen_hex_name.py L25-32.  State: num, string_rep, prefix. *)
Fixpoint hex_loop (fuel : nat) (num : Z) (string_rep prefix : list ascii)
  : option (list ascii) :=
  match fuel with
  | O => None
  | S f =>
    let remainder := num mod base in                             (* L26 *)
    let num := num - remainder in                                (* L27 *)
    let num := int_truediv num base in                           (* L28 *)
    let string_rep := nth (Z.to_nat remainder) char_set "000"%char
                        :: string_rep in                         (* L29 *)
    let prefix := removelast prefix in                           (* L30 *)
    if num =? 0 then Some (prefix ++ string_rep)%list            (* L31-34 *)
    else hex_loop f num string_rep prefix
  end.

(** gen_hex_name.py L2-35.  The loop is given [log2 num + 1] rounds; that this
    always suffices is theorem [gen_hex_name_total]. *)
Definition gen_hex_name (num : Z) : option (list ascii) :=
  hex_loop (S (Z.to_nat (Z.log2 num))) num [] (list_ascii_of_string "_0000").

Example gen_hex_name_ex0 :
  gen_hex_name 0 = Some (list_ascii_of_string "_0000").
Proof. vm_compute. reflexivity. Qed.
Example gen_hex_name_ex63 :
  gen_hex_name 63 = Some (list_ascii_of_string "_0010").
Proof. vm_compute. reflexivity. Qed.
Example gen_hex_name_ex_big :
  gen_hex_name (63 ^ 4) = Some (list_ascii_of_string "10000").
Proof. vm_compute. reflexivity. Qed.
