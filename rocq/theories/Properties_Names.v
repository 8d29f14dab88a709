(** Properties C12 and C13: identifiers generated for expressions. *)
From Verif Require Import PyBase Names SpecNames NamesProofs.
Open Scope Z_scope.

(** C12. Object counts below 62*63^4 = 976683582 give pairwise different names. *)
Theorem C12_names_unique :
  forall a b, 0 <= a < 62 * 63 ^ 4 -> 0 <= b < 62 * 63 ^ 4 ->
    gen_hex_name a = gen_hex_name b -> a = b.
Proof. exact names_unique. Qed.
Print Assumptions C12_names_unique.

(** C12. Such a name always exists, has five characters, all legal. *)
Theorem C12_names_wellformed :
  forall n, 0 <= n < 62 * 63 ^ 4 ->
    exists r, gen_hex_name n = Some r /\ length r = 5%nat
      /\ Forall (fun c => name_char c = true) r.
Proof. exact names_wellformed. Qed.
Print Assumptions C12_names_wellformed.

Example C12_example : 0 <= 976683581 < 62 * 63 ^ 4 /\
  gen_hex_name 976683581 <> gen_hex_name 976683580.
Proof. split; [lia|]. vm_compute. discriminate. Qed.

(** C13 is false: object number 976683582 reuses the name of object 0. *)
Theorem C13_names_unique_unbounded_refuted :
  exists a b, 0 <= a /\ 0 <= b /\ a <> b /\ gen_hex_name a = gen_hex_name b.
Proof. exact names_unique_refuted. Qed.
Print Assumptions C13_names_unique_unbounded_refuted.

(** C13, exact extent: below 63*2^53 the only collisions are between n and
    n + 62*63^4 for n < 63^4. *)
Theorem C13_collisions_exact :
  forall a b, 0 <= a -> a < b -> b < 63 * 2 ^ 53 ->
    (gen_hex_name a = gen_hex_name b <-> a < 63 ^ 4 /\ b = a + 62 * 63 ^ 4).
Proof. exact name_collision_iff. Qed.
Print Assumptions C13_collisions_exact.

Example C13_example : 5 < 5 + 62 * 63 ^ 4 < 63 * 2 ^ 53 /\
  gen_hex_name 5 = gen_hex_name (5 + 62 * 63 ^ 4).
Proof. split; [lia|]. vm_compute. reflexivity. Qed.
