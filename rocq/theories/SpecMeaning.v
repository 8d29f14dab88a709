(** What a model means: the formulas the user wrote, read with the documented
    meaning of every call, key and assignment. *)
From Coq Require Import Reals Arith List Bool ZArith.
From Verif Require Import PyBase SpecGraph Graph GroupApi RSum NdArray NdIndex Component SpecNorm SpecTotal
  CompElem CompCond StdCalls SpecStd SpecDeriv Indexing SpecIndex Setitem SpecSetitem.
Import ListNotations.
Local Open Scope nat_scope.

(** the same shape and entries *)
Definition same_array (x y : nd R) : Prop :=
  shp x = shp y /\ forall k, k < size (shp x) -> dat x k = dat y k.

(** the entries of a list of arrays: [entries_of xs q i] is entry [i] of number [q] *)
Definition entries_of (xs : list (nd R)) : nat -> nat -> R := args (map dat xs).

Section Formula.
Variable call : nat -> std_call.                   (* the call behind operation [f] *)
Variable key : nat -> Indexing.key.                (* the key behind part [k] *)
Variable kept : nat -> list Setitem.assignment.    (* the assignments to output [n] that returned *)
Variable before : nat -> nat -> R.                 (* what output [n] holds elsewhere *)
Variable shape_of : name -> list nat.
Variable st : api.

(** [denotes ind inp n y]: the expression [n] stands for the array [y], when the
    independent variables are [ind] and the declared inputs [inp]. *)
Inductive denotes (ind : nat -> values) (inp : name -> values) : nat -> nd R -> Prop :=
| dn_input n : akind st n = KInput -> denotes ind inp n (Nd (shape_of (aname st n)) (inp (aname st n)))
| dn_indep n nm : abuild st n = BIndep nm -> denotes ind inp n (Nd (shape_of (aname st n)) (ind n))
| dn_call n f operands xs dom m y : abuild st n = BExpr f operands -> denotes_all ind inp operands xs ->
    documented (call f) dom m -> dom (entries_of xs) -> m xs y -> shp y = shape_of (aname st n) ->
    denotes ind inp n y
| dn_define n e y : abuild st n = BPass e -> denotes ind inp e y -> denotes ind inp n y
| dn_assign n xs y : abuild st n = BIndexed -> denotes_all ind inp (map as_name (kept n)) xs ->
    assembles (shape_of (aname st n)) (before n) (kept n) xs y -> denotes ind inp n y
| dn_part n x dc k xv y : adecomp st x = Some dc -> In (k, n) (aparts st dc) -> denotes ind inp x xv ->
    selects (key k) [xv] y -> denotes ind inp n y
with denotes_all (ind : nat -> values) (inp : name -> values) : list nat -> list (nd R) -> Prop :=
| dns_nil : denotes_all ind inp [] []
| dns_cons n y ns ys : denotes ind inp n y -> denotes_all ind inp ns ys -> denotes_all ind inp (n :: ns) (y :: ys).

(** The components are the ones the calls, keys and assignments build. *)
Record built (table asm part : nat -> component) : Prop := {
  bt_call : forall n f operands, dep_on (adeps st) root n -> abuild st n = BExpr f operands ->
    std (call f) = Some (c_out (table f), Some (table f));
  bt_part : forall n x k e, dep_on (adeps st) root n -> abuild st n = BDecomp x -> In (k, e) (aparts st n) ->
    let s := shape_of (aname st x) in
    exists ks v rs v' i p, plain_key (key k) /\ getitems (fresh_var s s) ks = (v, rs) /\
      getitem v (key k) = (v', Some i) /\ piece_of v' i = Some p /\ decompose_comp s p = Some (part k);
  bt_asm : forall n, dep_on (adeps st) root n -> abuild st n = BIndexed ->
    let s := shape_of (aname st n) in
    exists hs o rs, Forall (fun a => fitting s (as_key a)) hs /\ setitems (fresh_out s) hs = (o, rs) /\
      ~ In Overlap rs /\ In Done rs /\ kept n = done hs rs /\ map as_name (kept n) = map snd (atgt st n) /\
      assembled s (before n) (ov_tgts o) = Some (asm n)
}.

(** every variable has one shape, for the component that writes it and for those
    that read it *)
Definition shapes_agree (table asm part : nat -> component) (subs : nat -> list component)
           (sub_reads sub_writes : nat -> list name) : Prop :=
  forall n, dep_on (adeps st) root n -> (forall nm, abuild st n <> BIndep nm) ->
    Forall2 (fun x c => c_out c = shape_of x /\ c_ins c = map shape_of (comp_reads sub_reads st n))
            (comp_writes sub_writes st n) (parts_of table asm part subs shape_of st n).

(** every call is documented and gets operands for which it is differentiable *)
Definition within (fin : name -> values) : Prop :=
  forall n f operands, dep_on (adeps st) root n -> abuild st n = BExpr f operands ->
    exists dom m, documented (call f) dom m /\ dom (args (map (fun a => fin (aname st a)) operands)).
End Formula.
Scheme denotes_ind2 := Induction for denotes Sort Prop
with denotes_all_ind2 := Induction for denotes_all Sort Prop.
