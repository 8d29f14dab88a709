(** C17 - C20, C71 and C72.  Specification: SpecIndex.v, NumPy's indexing in
    NdIndex.v, JacSpec.v.  Concrete cases: index_case, index_again_case and
    index_first_case in IndexProofs.v, other_case and other_short_case in
    IndexOther.v. *)
From Coq Require Import Reals Arith List Bool ZArith.
From Verif Require Import PyBase NdArray NdIndex Component JacSpec Indexing SpecIndex IndexProofs IndexOther.
Import ListNotations.

(** after any requests [ks] *)
Theorem C17_selects : forall s ks k x rs x' e, plain_key k ->
  getitems (fresh_var s s) ks = (x, rs) -> getitem x k = (x', Some e) ->
  exists p c, piece_of x' e = Some p /\ decompose_comp s p = Some c /\
    c_ins c = [s] /\ c_out c = pc_shape p /\ correct c (selects k).
Proof. exact index_value. Qed.
Print Assumptions C17_selects.

Theorem C18_rejected : forall s ks k x rs, plain_key k ->
  getitems (fresh_var s s) ks = (x, rs) -> ~ key_within s k -> snd (getitem x k) = None.
Proof. exact index_only_within. Qed.
Print Assumptions C18_rejected.

Theorem C18_accepted : forall s ks k x rs, plain_key k ->
  getitems (fresh_var s s) ks = (x, rs) -> ks = [] \/ some_accepted rs ->
  ((exists e, snd (getitem x k) = Some e) <-> key_within s k).
Proof. exact index_accept. Qed.
Print Assumptions C18_accepted.

Theorem C19_reuse : forall s ks k1 ks' k2 x0 rs0 x1 e1 x2 rs x3 e2, plain_key k1 -> plain_key k2 ->
  getitems (fresh_var s s) ks = (x0, rs0) -> getitem x0 k1 = (x1, Some e1) ->
  getitems x1 ks' = (x2, rs) -> getitem x2 k2 = (x3, Some e2) ->
  (e1 = e2 <-> spelled_key s (key_entries k1) = spelled_key s (key_entries k2)) /\
  piece_of x3 e1 = piece_of x1 e1.
Proof. exact index_same. Qed.
Print Assumptions C19_reuse.

Theorem C20_refuted :
  (exists s k, key_within s k /\ snd (getitem (fresh_var s [1]%nat) k) = None) /\
  exists s k x' e p, key_within s k /\ getitem (fresh_var s [1]%nat) k = (x', Some e) /\
    piece_of x' e = Some p /\ decompose_comp s p = None.
Proof. exact index_computed_raises. Qed.
Print Assumptions C20_refuted.

Theorem C20_actual : forall s ks k x rs x' e, plain_key k ->
  getitems (fresh_var s [1]%nat) ks = (x, rs) -> getitem x k = (x', Some e) ->
  exists n p, s = [n] /\ piece_of x' e = Some p /\
    (only_first n k /\ (exists c, decompose_comp s p = Some c /\ correct c (selects k)) \/
     ~ only_first n k /\ decompose_comp s p = None).
Proof. exact index_unknown. Qed.
Print Assumptions C20_actual.

Theorem C71_refuted :
  exists s k0 k, key_within s k /\ plain_key k0 /\ ~ key_within s k0 /\
    snd (getitem (fresh_var s s) k) <> None /\
    snd (getitems (fresh_var s s) [k0; k]) = [None; None].
Proof. exact index_after_error. Qed.
Print Assumptions C71_refuted.

Theorem C71_actual : forall s vs k0 ks x rs, val_key_ok vs k0 = false ->
  getitems (fresh_var s vs) (k0 :: ks) = (x, rs) -> forall e, ~ In (Some e) rs.
Proof. exact index_broken. Qed.
Print Assumptions C71_actual.

Theorem C72_refuted :
  exists s l x' e p, In KNone l /\ getitem (fresh_var s s) (KTuple l) = (x', Some e) /\
    piece_of x' e = Some p /\ pc_shape p = [1; 1]%nat /\ val_key_ok s (KTuple l) = true.
Proof. exact index_other_accepted. Qed.
Print Assumptions C72_refuted.

(** other entries of a tuple are dropped ... *)
Theorem C72_actual : forall s ks l x rs x' e,
  getitems (fresh_var s s) ks = (x, rs) -> getitem x (KTuple l) = (x', Some e) ->
  exists p c, piece_of x' e = Some p /\ decompose_comp s p = Some c /\
    c_ins c = [s] /\ c_out c = pc_shape p /\ correct c (selects (KTuple (left_over s 0 l))).
Proof. exact other_value. Qed.
Print Assumptions C72_actual.

(** ... which is accepted exactly when *)
Theorem C72_accepted : forall s ks l x rs,
  getitems (fresh_var s s) ks = (x, rs) ->
  ks = [] /\ val_key_ok s (KTuple l) = true \/ some_accepted rs ->
  ((exists e, snd (getitem x (KTuple l)) = Some e) <->
   slices_placed s l /\ key_within s (KTuple (left_over s 0 l))).
Proof. exact other_accept. Qed.
Print Assumptions C72_accepted.

(** without a tuple it holds *)
Theorem C72_alone : forall x k, match k with KInt _ | KSlice _ => False | _ => True end ->
  snd (getitem x (KOne k)) = None.
Proof. exact other_alone. Qed.
Print Assumptions C72_alone.
