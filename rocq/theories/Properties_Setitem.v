(** C21 - C24 and C73.  Specification: SpecSetitem.v, NumPy's indexing in
    NdIndex.v, JacSpec.v.  Concrete cases: assign_case and assign_negative_case
    in SetitemProofs.v, assign_overlaps_case in SetitemOverlap.v. *)
From Coq Require Import Reals Arith List Bool ZArith.
From Verif Require Import PyBase NdArray NdIndex Component JacSpec Indexing SpecIndex Setitem SpecSetitem SetitemProofs SetitemOverlap.
Import ListNotations.

Theorem C21_disjoint : forall s hs o rs, Forall (fun a => fitting s (as_key a)) hs ->
  setitems (fresh_out s) hs = (o, rs) -> ~ In Overlap rs ->
  (forall p q a b z, p <> q -> nth_error (done hs rs) p = Some a -> nth_error (done hs rs) q = Some b ->
     names_position s (as_key a) z -> ~ names_position s (as_key b) z) /\
  (forall a z, In a (done hs rs) -> names_position s (as_key a) z -> (z < size s)%nat).
Proof. exact assign_disjoint. Qed.
Print Assumptions C21_disjoint.

(** exactly the assignments that fit are accepted *)
Theorem C21_accepted : forall s hs o rs a, Forall (fun a => fitting s (as_key a)) hs -> fitting s (as_key a) ->
  setitems (fresh_out s) hs = (o, rs) -> ~ In Overlap rs ->
  (snd (setitem o (as_key a) (as_name a) (as_shape a)) = Done <->
   assign_within s (key_entries (as_key a)) /\ part_shape s (as_key a) (as_shape a) /\
   (forall b, In b (done hs rs) -> as_name b <> as_name a) /\
   (forall b z, In b (done hs rs) -> names_position s (as_key b) z -> ~ names_position s (as_key a) z)).
Proof. exact assign_accept. Qed.
Print Assumptions C21_accepted.

Theorem C22_assembles : forall s hs o rs y0, Forall (fun a => fitting s (as_key a)) hs ->
  setitems (fresh_out s) hs = (o, rs) -> ~ In Overlap rs -> In Done rs ->
  ov_built o = true /\
  exists c, assembled s y0 (ov_tgts o) = Some c /\ c_ins c = map as_shape (done hs rs) /\ c_out c = s /\
    correct c (assembles s y0 (done hs rs)).
Proof. exact assign_value. Qed.
Print Assumptions C22_assembles.

Theorem C23_overlap_refuted : exists s a b o,
  setitems (fresh_out s) [a; b] = (o, [Done; Overlap]) /\ ov_built o = true /\
  forall y0, exists c, assembled s y0 (ov_tgts o) = Some c /\ length (c_ins c) = 2%nat /\
    forall v, exists y j, c_compute c (inputs_of (c_ins c) v) = Some y /\
      names_position s (as_key a) 1 /\ dat y 1%nat = v 1%nat 0%nat /\
      c_partials c (inputs_of (c_ins c) v) 0 = Some (Sparse j) /\ coo_entry j 1 1 = 1%R.
Proof. exact assign_overlap_effect. Qed.
Print Assumptions C23_overlap_refuted.

(** whatever overlaps were reported, and whatever was done afterwards *)
Theorem C23_actual : forall s hs o rs y0, Forall (fun a => fitting s (as_key a)) hs ->
  setitems (fresh_out s) hs = (o, rs) ->
  (ov_built o = true <-> In Done rs) /\
  (In Done rs -> exists c F, assembled s y0 (ov_tgts o) = Some c /\
    c_ins c = map as_shape (recorded hs rs) /\ c_out c = s /\
    (forall v, c_compute c (inputs_of (c_ins c) v) = Some (Nd s (F v)) /\
       last_wins s y0 (recorded hs rs) (inputs_of (c_ins c) v) (Nd s (F v))) /\
    (forall v p a, nth_error (recorded hs rs) p = Some a -> exists j, c_partials c (inputs_of (c_ins c) v) p = Some j /\
       (exact_jac (size s) (size (as_shape a)) (fun x => F (set_op v p x)) (v p) j <->
        forall z, names_position s (as_key a) z -> last_at s (recorded hs rs) p z))).
Proof. exact assign_overlaps. Qed.
Print Assumptions C23_actual.

Theorem C23_other_rejections : forall o k e es o', setitem o k e es = (o', Rejected) ->
  o' = OutVar (ov_shape o) (ov_deps o ++ [e]) (ov_tgts o) (ov_checked o) (ov_built o).
Proof. exact assign_rejected. Qed.
Print Assumptions C23_other_rejections.

(** in any state; integers on their own must not be negative *)
Theorem C24_bounds : forall o k e es, fitting (ov_shape o) k ->
  snd (setitem o k e es) <> Rejected -> assign_within (ov_shape o) (key_entries k).
Proof. exact assign_bounds. Qed.
Print Assumptions C24_bounds.

Theorem C24_negative_refuted : forall o z e, (z < 0)%Z -> name_used o e = false -> ~ In z (ov_checked o) ->
  exists o1, setitem o (KOne (KInt z)) e [1%nat] = (o1, Done) /\
    forall hs o2 rs, setitems o1 hs = (o2, rs) -> forall s y0, assembled s y0 (ov_tgts o2) = None.
Proof. exact assign_negative. Qed.
Print Assumptions C24_negative_refuted.

Theorem C73_refuted : exists s k x y, (2 <= length s)%nat /\ plain_key k /\ (exists k1, k = KOne k1) /\
  part_shape s k (as_shape x) /\ as_key x = k /\ as_key y = k /\ as_shape y <> as_shape x /\
  snd (setitems (fresh_out s) [x]) = [Rejected] /\ snd (setitems (fresh_out s) [y]) = [Done].
Proof. exact assign_slice_nd. Qed.
Print Assumptions C73_refuted.

Theorem C73_actual : forall o k1 e es, (2 <= length (ov_shape o))%nat ->
  snd (setitem o (KOne k1) e es) = Done -> ~ part_shape (ov_shape o) (KOne k1) es.
Proof. exact assign_single_nd. Qed.
Print Assumptions C73_actual.
