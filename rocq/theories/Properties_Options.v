(** Properties of OptionsDictionary (C62-C64, C66).  [supers]: the user-defined
    class hierarchy; [orun supers (onew ro) h = (o, rs)]: the calls [h] on a new
    dictionary end in [o] with results [rs]. *)
From Coq Require Import String QArith.
From Verif Require Import PyBase Options SpecOptions OptionsProofs.
Open Scope nat_scope.

(** C62. *)
Theorem C62_values_read_are_valid :
  forall supers ro h o rs name v,
  orun supers (onew ro) h = (o, rs) -> declarations_ok h rs -> getitem o name = Ok v ->
  exists d, in_force h name None = Some d /\ satisfies supers d v.
Proof. intros. exact (read_values_valid supers ro h o rs name v H H0 H1). Qed.
Print Assumptions C62_values_read_are_valid.

(** Reading raises exactly for undeclared options and options without a value. *)
Theorem C62_read_errors :
  forall supers ro h o rs name,
  orun supers (onew ro) h = (o, rs) -> declarations_ok h rs ->
  (in_force h name None = None <-> getitem o name = Raise KeyError)
  /\ (forall e, getitem o name = Raise e -> e = KeyError \/ e = RuntimeError)
  /\ (contains o name = true <-> in_force h name None <> None).
Proof. intros. exact (read_errors supers ro h o rs name H H0). Qed.
Print Assumptions C62_read_errors.

(** Numeric bounds are honoured for every finite number ... *)
Theorem C62_bounds_honoured :
  forall supers d v x, satisfies supers d v -> amount v (Fin x) ->
  (forall u y, d_upper d = Some u -> amount u (Fin y) -> (x <= y)%Q)
  /\ (forall l y, d_lower d = Some l -> amount l (Fin y) -> (y <= x)%Q).
Proof. intros. exact (bounds_honoured supers d v x H H0). Qed.
Print Assumptions C62_bounds_honoured.

(** ... but NaN passes every numeric bound. *)
Theorem C62_nan_bounds_refuted :
  forall supers, exists d o, d_lower d = Some (VFloat (Fin 0)) /\ d_upper d = Some (VFloat (Fin 1))
    /\ orun supers (onew false) [ODeclare 0 d; OSet 0 (VFloat NaN)] = (o, [Ok tt; Ok tt])
    /\ getitem o 0 = Ok (VFloat NaN).
Proof. intros supers. exact (nan_accepted supers). Qed.
Print Assumptions C62_nan_bounds_refuted.

Definition ex_decl : decl :=
  Decl (Some (VInt 3)) None (Some (TypesTuple [TInt; TFloat])) (Some (VInt 10)) (Some (VFloat (Fin (1#2)))) None true.
Definition ex_history : list oop :=
  [ODeclare 0 ex_decl; OSet 0 (VInt 11); OSet 0 (VStr "a"); OSet 0 (VFloat (Fin (7#2)));
   ODeclare 1 (Decl None (Some (ValuesSeq [VStr "x"; VInt 1])) None None None None false);
   OUpdate [(1, VBool true); (0, VNone); (5, VInt 1); (1, VStr "x")]].
Example C62_instance :
  let '(o, rs) := orun (fun _ => []) (onew false) ex_history in
  rs = [Ok tt; Raise ValueError; Raise TypeError; Ok tt; Ok tt; Raise KeyError]
  /\ declarations_ok ex_history rs
  /\ getitem o 0 = Ok VNone /\ getitem o 1 = Ok (VBool true) /\ getitem o 5 = Raise KeyError.
Proof.
  cbn. splits; auto. intros i n d H.
  do 6 (destruct i as [|i]; [cbn in *; first [discriminate|reflexivity]|]). destruct i; discriminate.
Qed.

(** C63. *)
Theorem C63_failed_set_changes_nothing :
  forall supers o n v o' e, setitem supers o n v = (o', Raise e) -> o' = o.
Proof. intros. exact (failed_set supers o n v o' e H). Qed.
Print Assumptions C63_failed_set_changes_nothing.

Theorem C63_set_succeeds_iff_valid :
  forall supers ro h o rs n v,
  orun supers (onew ro) h = (o, rs) -> declarations_ok h rs ->
  (snd (setitem supers o n v) = Ok tt <->
   ro = false /\ exists d, in_force h n None = Some d /\ satisfies supers d v).
Proof. intros. exact (set_iff supers ro h o rs n v H H0). Qed.
Print Assumptions C63_set_succeeds_iff_valid.

Theorem C63_set_then_get :
  forall supers o n v o', setitem supers o n v = (o', Ok tt) ->
  getitem o' n = Ok v /\ (forall k, k <> n -> getitem o' k = getitem o k)
  /\ (forall k, contains o' k = contains o k) /\ read_only o' = read_only o.
Proof. intros. exact (good_set supers o n v o' H). Qed.
Print Assumptions C63_set_then_get.

Theorem C63_update_stops_at_first_failure :
  forall supers l o o' r, update supers o l = (o', r) ->
  exists p q, l = p ++ q
    /\ (exists rs, orun supers o (map (fun kv => OSet (fst kv) (snd kv)) p) = (o', rs) /\ forall x, In x rs -> x = Ok tt)
    /\ ((r = Ok tt /\ q = [])
        \/ exists k v q' e, q = (k, v) :: q' /\ r = Raise e /\ setitem supers o' k v = (o', Raise e)).
Proof. intros. exact (update_prefix supers l o o' r H). Qed.
Print Assumptions C63_update_stops_at_first_failure.

Example C63_instance :
  let o := fst (orun (fun _ => []) (onew false) [ODeclare 0 ex_decl]) in
  snd (setitem (fun _ => []) o 0 (VInt 10)) = Ok tt
  /\ snd (setitem (fun _ => []) o 0 (VInt 11)) = Raise ValueError
  /\ snd (setitem (fun _ => []) o 1 (VInt 10)) = Raise KeyError
  /\ snd (setitem (fun _ => []) (Options (odict o) true) 0 (VInt 10)) = Raise KeyError.
Proof. cbn. auto. Qed.

(** C64: malformed declarations change nothing ... *)
Theorem C64_malformed_declaration_changes_nothing :
  forall supers o n d, ~ wellformed d -> exists e, declare supers o n d = (o, Raise e).
Proof. intros. exact (declare_malformed supers o n d H). Qed.
Print Assumptions C64_malformed_declaration_changes_nothing.

(** ... but an invalid default always stays readable. *)
Theorem C64_invalid_default_refuted :
  forall supers o n d v, wellformed d -> d_default d = Some v -> ~ satisfies supers d v ->
  exists e o', declare supers o n d = (o', Raise e) /\ getitem o' n = Ok v.
Proof. intros. exact (bad_default supers o n d v H H0 H1). Qed.
Print Assumptions C64_invalid_default_refuted.

Example C64_instance : forall supers,
  let d := Decl (Some (VInt 11)) None (Some (TypesOne TInt)) (Some (VInt 10)) None None false in
  wellformed d /\ ~ satisfies supers d (VInt 11)
  /\ (let '(o, r) := declare supers (onew false) 0 d in r = Raise ValueError /\ getitem o 0 = Ok (VInt 11)).
Proof. intros supers. exact (bad_default_example supers). Qed.

(** C66: a tuple of types admits its instances; a list or set of types, which
    declare accepts, admits no value at all. *)
Theorem C66_listed_types_admit_nothing_refuted :
  forall supers d l v, wellformed d -> d_types d = Some (TypesListOrSet l) -> v <> VNone -> ~ satisfies supers d v.
Proof. intros. exact (list_types_useless supers d l v H H0 H1). Qed.
Print Assumptions C66_listed_types_admit_nothing_refuted.

Theorem C66_tuple_of_types_admits_instances :
  forall supers d l t v, d_values d = None -> d_types d = Some (TypesTuple l) -> d_upper d = None -> d_lower d = None ->
  d_check d = None -> In t l -> of_class supers v t -> satisfies supers d v.
Proof. intros. exact (tuple_types_admit supers d l t v H H0 H1 H2 H3 H4 H5). Qed.
Print Assumptions C66_tuple_of_types_admits_instances.

Example C66_instance :
  let d l := Decl None None (Some l) None None None false in
  let run l := snd (orun (fun _ => []) (onew false) [ODeclare 0 (d l); OSet 0 (VInt 1)]) in
  run (TypesTuple [TInt; TFloat]) = [Ok tt; Ok tt] /\ run (TypesListOrSet [TInt; TFloat]) = [Ok tt; Raise TypeError].
Proof. cbn. auto. Qed.
