(** Model of omtools/utils/replace_output_leaf_nodes.py, with the list objects
    Python iterates over made explicit. *)
From Verif Require Import PyBase.

(** [Variable.dependencies] of node [n] is the list object number [gen n] of
    that node; [heap n g] is the content of its [g]-th list object.  Rebinding
    [self.dependencies] makes a new list object, while a running [for] loop
    keeps iterating over the one it started with. *)
Record lstate := LS {
  gen : nat -> nat;
  heap : nat -> nat -> list nat;
  ltick : nat
}.

Definition cur (s : lstate) (n : nat) : list nat := heap s n (gen s n).

Definition set_heap (h : nat -> nat -> list nat) (n g : nat) (l : list nat) :=
  fun m => if Nat.eqb m n then upd (h m) g l else h m.

(** variable.py L370-384: list.remove of the first occurrence, in place. *)
Definition remove_dependency_node (s : lstate) (n x : nat) : lstate :=
  LS (gen s) (set_heap (heap s) n (gen s n) (remove_first x (cur s n))) (ltick s).

(** variable.py L223-242, L364-368: append in place, then rebind to list(set(...)). *)
Definition append_dependency_node (O : oracle) (s : lstate) (n x : nat) : lstate :=
  let l := cur s n ++ [x] in
  LS (upd (gen s) n (S (gen s n)))
     (set_heap (set_heap (heap s) n (gen s n) l) n (S (gen s n)) (O (ltick s) l))
     (S (ltick s)).

Section Replace.
Variable O : oracle.
Variables (root leaf : nat).

(** replace_output_leaf_nodes.py L15-20: the [for] loop over the list object
    [heap node g].  It is indexed: step [i] looks at position [i] of that object
    as it is then.  [k] bounds the number of steps; the loop is out of fuel
    ([None]) if the list is longer.  [rec] is the recursive call of L20. *)
Fixpoint replace_loop (rec : nat -> lstate -> option lstate) (node g k i : nat)
         (s : lstate) : option lstate :=
  match nth_error (heap s node g) i with
  | None => Some s
  | Some dependency =>
    match k with
    | 0 => None
    | S k' =>
      let s := if Nat.eqb dependency root                             (* L16 *)
               then append_dependency_node O
                      (remove_dependency_node s node dependency) node leaf  (* L18-19 *)
               else s in
      match rec dependency s with                                     (* L20 *)
      | Some s' => replace_loop rec node g k' (S i) s'
      | None => None
      end
    end
  end.

(** replace_output_leaf_nodes.py L6-20. *)
Fixpoint replace_output_leaf_nodes (fuel : nat) (node : nat) (s : lstate) : option lstate :=
  match fuel with
  | 0 => None
  | S f => let g := gen s node in
           replace_loop (replace_output_leaf_nodes f) node g (length (heap s node g)) 0 s
  end.
End Replace.

(** Every node starts with its list object number 0. *)
Definition lstart (d : nat -> list nat) (t : nat) : lstate :=
  LS (fun _ => 0) (fun n g => match g with 0 => d n | _ => [] end) t.

(** Graph part of ExplicitOutput.define, explicit_output.py L71-76: depend on
    [expr], then replace the uses of [out] below [out] by the new Input [leaf].
    No loop is running on entry, so older list objects are unreachable. *)
Definition define_graph (O : oracle) (fuel out expr leaf : nat) (d : nat -> list nat) (t : nat)
  : option (nat -> list nat) :=
  match replace_output_leaf_nodes O out leaf fuel out
          (lstart (upd d out (O t (d out ++ [expr]))) (S t)) with
  | Some s => Some (cur s)
  | None => None
  end.

(** Graph part of ImplicitOutput.define_residual, implicit_output.py L95-99. *)
Definition residual_graph (O : oracle) (fuel out residual leaf : nat) (d : nat -> list nat) (t : nat)
  : option (nat -> list nat) :=
  match replace_output_leaf_nodes O out leaf fuel residual (lstart d t) with
  | Some s => Some (cur s)
  | None => None
  end.

(** out = 0 depends on 1 = f(0, 2), 2 = g(0, 3): both uses are replaced by 9. *)
Example replace_ex :
  match replace_output_leaf_nodes nodup_oracle 0 9 20 0
          (lstart (fun n => nth n [[1]; [0; 2]; [0; 3]] []) 0) with
  | Some s => Some (map (cur s) [0; 1; 2; 3])
  | None => None
  end = Some [[1]; [2; 9]; [3; 9]; []].
Proof. reflexivity. Qed.

(** The same graph seen as a residual 1 of an implicit output 0 (no dependencies):
    the loop over [0; 2] skips 2 once 0 has been removed. *)
Example replace_ex_skip :
  match replace_output_leaf_nodes nodup_oracle 0 9 20 1
          (lstart (fun n => nth n [[]; [0; 2]; [0; 3]] []) 0) with
  | Some s => Some (map (cur s) [0; 1; 2; 3])
  | None => None
  end = Some [[]; [2; 9]; [0; 3]; []].
Proof. reflexivity. Qed.
