(** Meaning of an expression tree, and the conditions on names under which a
    model is well formed. *)
From Verif Require Import PyBase SpecGraph Graph GroupApi.

Section Tree.
Variable V : Type.
Variable op_sem : nat -> list V -> V.
Variable indep_sem : nat -> V.
Variable asm_sem : nat -> list V -> V.
Variable part_sem : nat -> V -> V.

(** Meaning of an expression: by recursion over what the user wrote.  [inp]
    gives the value of each declared input. *)
Inductive tree_value (st : api) (inp : nat -> V) : nat -> V -> Prop :=
| tv_input n : akind st n = KInput -> tree_value st inp n (inp n)
| tv_indep n nm : abuild st n = BIndep nm -> tree_value st inp n (indep_sem n)
| tv_expr n f args vs : abuild st n = BExpr f args -> tree_values st inp args vs ->
    tree_value st inp n (op_sem f vs)
| tv_define n e v : abuild st n = BPass e -> tree_value st inp e v -> tree_value st inp n v
| tv_assign n vs : abuild st n = BIndexed -> tree_values st inp (map snd (atgt st n)) vs ->
    tree_value st inp n (asm_sem n vs)
| tv_part n x dc k v : adecomp st x = Some dc -> In (k, n) (aparts st dc) -> tree_value st inp x v ->
    tree_value st inp n (part_sem k v)
with tree_values (st : api) (inp : nat -> V) : list nat -> list V -> Prop :=
| tvs_nil : tree_values st inp [] []
| tvs_cons n v ns vs : tree_value st inp n v -> tree_values st inp ns vs ->
    tree_values st inp (n :: ns) (v :: vs).
End Tree.
Scheme tree_value_ind2 := Induction for tree_value Sort Prop
with tree_values_ind2 := Induction for tree_values Sort Prop.

Section Names.
Variables (sub_reads sub_writes : nat -> list name).
Local Notation writes := (comp_writes sub_writes).

(** Hypotheses on names: what OpenMDAO requires, and what the user must respect. *)
Record names_ok (st : api) : Prop := {
  (* a promoted output has one source *)
  no_once : forall n, dep_on (adeps st) root n -> NoDup (writes st n);
  no_single : forall m n x, dep_on (adeps st) root m -> dep_on (adeps st) root n ->
    In x (writes st m) -> In x (writes st n) -> m = n;
  (* an input named like an output depends on the system that writes it *)
  no_input : forall i m, dep_on (adeps st) root i -> dep_on (adeps st) root m -> akind st i = KInput ->
    In (aname st i) (writes st m) -> dep_on (adeps st) i m;
  no_sub : forall b k g x m, dep_on (adeps st) root b -> dep_on (adeps st) root m -> abuild st b = BSub k g ->
    In x (sub_reads k) -> In x (writes st m) -> dep_on (adeps st) b m;
  (* sources of an indexed assignment were not renamed afterwards *)
  no_stale : forall n nm e, abuild st n = BIndexed -> In (nm, e) (atgt st n) -> nm = aname st e
}.

End Names.
