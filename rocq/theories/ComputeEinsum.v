(** C112 for einsum: which strings and tuples fit the operands. *)
From Coq Require Import Reals Lia Arith List Bool.
From Verif Require Import PyBase RSum NdArray NdEinsum Component CompEinsum CompEinsumSparse CompElem CompCond StdCalls
  SpecBuild SpecAccept SpecCompute SpecBroadcast BroadcastProofs EinsumStrings EinsumCalc EinsumProofs EinsumNew AcceptProofs ReorderProofs JacSpec CompReorder
  SpecEinsum EinsumOrder.
Import ListNotations.
Local Open Scope nat_scope.

(** ---- np.einsum ---- *)

Lemma ops_of : forall (subs : list (list nat)) (arrays : list (nd R)) (f : nat -> nat),
  length subs = length arrays ->
  (forall op, In op (combine subs arrays) -> shp (snd op) = map f (fst op)) ->
  map shp arrays = map (map f) subs.
Proof.
  induction subs as [|r subs IH]; intros [|a arrays] f L H; try discriminate; [reflexivity|].
  cbn [map]. f_equal.
  - exact (H (r, a) (or_introl eq_refl)).
  - apply IH; [now injection L|]. intros op Hop. apply H. now right.
Qed.

Lemma okb_conf ops out : einsum_okb ops out = true ->
  conf (dim_of ops) ops /\ NoDup out /\ forall l, In l out -> In l (in_labels ops).
Proof.
  unfold einsum_okb. rewrite !andb_true_iff. intros [[[L E] ND] I]. splits.
  - intros op Hop. rewrite forallb_forall in L, E. specialize (L _ Hop). specialize (E _ Hop).
    apply Nat.eqb_eq in L. rewrite forallb_forall in E.
    apply nth_ext with (d := 0) (d' := dim_of ops 0); [now rewrite map_length|].
    intros j Hj. rewrite map_nth. apply Nat.eqb_eq, E, in_seq. lia.
  - now apply nodupb_NoDup.
  - intros l Hl. rewrite forallb_forall in I. apply mem_In. auto.
Qed.

Lemma einsum_str_iff op subs out arrays : np_subscripts op = Some (subs, out) ->
  (np_einsum_str op arrays <> None <-> subscripts_fit subs out (map shp arrays)).
Proof.
  intros P. unfold np_einsum_str, subscripts_fit. rewrite P. split.
  - destruct (Nat.eqb_spec (length subs) (length arrays)) as [L|]; [|cbn [andb]; congruence].
    cbn [andb]. destruct (einsum_okb (combine subs arrays) out) eqn:E; [|congruence]. intros _.
    apply okb_conf in E as (C & ND & I). unfold in_labels in I. rewrite combine_fst in I by assumption. splits.
    + exists (dim_of (combine subs arrays)). now apply ops_of.
    + assumption.
    + exact I.
  - intros ((ext & E) & ND & I).
    assert (L : length subs = length arrays).
    { apply (f_equal (@length _)) in E. rewrite !map_length in E. now symmetry. }
    rewrite L, Nat.eqb_refl. cbn [andb]. rewrite (okb_true ext); [discriminate|now apply combine_conf|assumption|].
    unfold in_labels. rewrite combine_fst by assumption. exact I.
Qed.

Lemma einsum_str_size op subs out arrays y s : np_subscripts op = Some (subs, out) ->
  np_einsum_str op arrays = Some y -> compute_einsum_shape (subs ++ [out]) (map shp arrays) = Some s ->
  size (shp y) = size s.
Proof.
  intros P E ES. assert (F : subscripts_fit subs out (map shp arrays)).
  { apply (einsum_str_iff _ _ _ _ P). congruence. }
  destruct F as ((ext & F) & ND & I). rewrite F, einsum_shape_right in ES by exact I. injection ES as <-.
  rewrite result_size. unfold np_einsum_str in E. rewrite P in E.
  destruct (Nat.eqb_spec (length subs) (length arrays)) as [L|]; [|discriminate]. cbn [andb] in E.
  destruct (einsum_okb _ _); [|discriminate]. injection E as <-. f_equal.
  apply EinsumCalc.einsum_shape; [now apply combine_conf|].
  unfold in_labels. rewrite combine_fst by assumption. exact I.
Qed.

(** ---- the operands ---- *)

Definition named_shapes (xs : list expr_facts) (n : nat) := shape_of_name (map x_name xs) (map x_shape xs) n.

Lemma named_shape xs x : same_named xs -> In x xs -> named_shapes xs (x_name x) = x_shape x.
Proof.
  unfold named_shapes, shape_of_name. intros S Hx.
  assert (Hp : find_pos (map x_name xs) (x_name x) < length xs).
  { rewrite <- (map_length x_name). now apply find_pos_lt, in_map. }
  set (p := find_pos _ _) in *. rewrite nth_indep with (d' := x_shape x) by now rewrite map_length.
  rewrite map_nth. apply S; [now apply nth_In|assumption|].
  rewrite <- map_nth. unfold p. rewrite nth_find_pos by now apply in_map. reflexivity.
Qed.

Lemma operand_shapes xs v : same_named xs ->
  map shp (inputs_named (map x_name xs)
             (inputs_of (map (shape_of_name (map x_name xs) (map x_shape xs)) (distinct (map x_name xs))) v))
  = map x_shape xs.
Proof.
  intros S. unfold inputs_named. rewrite !map_map. apply map_ext_in. intros x Hx.
  assert (I : In (x_name x) (distinct (map x_name xs))) by (apply dedup_In; now apply in_map).
  pose proof (find_pos_lt _ _ I) as L. rewrite inputs_of_nth by now rewrite map_length. cbn [shp].
  rewrite nth_indep with (d' := named_shapes xs 0) by now rewrite map_length.
  rewrite (map_nth (named_shapes xs)). rewrite nth_find_pos by assumption. now apply named_shape.
Qed.

(** ---- the component ---- *)

Lemma einsum_any_parts sparse op names shapes c : einsum_any sparse op names shapes = Some c ->
  exists s, compute_einsum_shape (subscripts_tolist op) shapes = Some s /\
    c_ins c = map (shape_of_name names shapes) (distinct names) /\
    forall ins, c_compute c ins = match np_einsum_str op (inputs_named names ins) with
                                  | Some y => assign_output s y
                                  | None => None
                                  end.
Proof.
  unfold einsum_any, einsum_comp, einsum_sparse_comp. intros H.
  destruct (compute_einsum_shape _ _) as [s|]; [|destruct sparse; discriminate].
  exists s. destruct sparse; [|now injection H as <-].
  destruct (map_opt _ _); [|discriminate]. now injection H as <-.
Qed.

Lemma einsum_delivers sparse op subs out xs c v : same_named xs -> np_subscripts op = Some (subs, out) ->
  einsum_any sparse op (map x_name xs) (map x_shape xs) = Some c ->
  (delivers c v <-> subscripts_fit subs out (map x_shape xs)).
Proof.
  intros S P H. apply einsum_any_parts in H as (s & ES & EI & EC). unfold delivers. rewrite EI, EC.
  pose proof (operand_shapes xs v S) as OS. set (arrays := inputs_named _ _) in *.
  rewrite <- OS, <- (einsum_str_iff op subs out arrays P). rewrite <- OS, (tolist_is_parse _ _ _ P) in ES.
  destruct (np_einsum_str op arrays) as [y|] eqn:E.
  - split; [discriminate|]. intros _. apply assign_fills. left. exact (einsum_str_size _ _ _ _ _ _ P E ES).
  - split; [intros [y Hy]; discriminate|]. congruence.
Qed.

(** ---- tuples ---- *)

Lemma map_inj_on (g : nat -> nat) (D : list nat) : (forall a b, In a D -> In b D -> g a = g b -> a = b) ->
  forall l, incl l D -> (NoDup (map g l) <-> NoDup l).
Proof.
  intros J. induction l as [|x l IH]; intros I; [split; constructor|]. cbn [map]. rewrite !NoDup_cons_iff.
  rewrite IH by (intros a Ha; apply I; now right).
  assert (E : In (g x) (map g l) <-> In x l).
  { split; [|apply in_map]. rewrite in_map_iff. intros (a & E & Ha).
    now rewrite <- (J a x (I a (or_intror Ha)) (I x (or_introl eq_refl)) E). }
  tauto.
Qed.

Lemma renamed_fit (g : nat -> nat) subs out shapes : incl out (concat subs) ->
  (forall a b, In a (concat subs) -> In b (concat subs) -> g a = g b -> a = b) ->
  (subscripts_fit (map (map g) subs) (map g out) shapes <-> subscripts_fit subs out shapes).
Proof.
  intros I J. unfold subscripts_fit. rewrite (map_inj_on g _ J out I). split.
  - intros ((ext & E) & ND & _). splits; [|assumption|assumption]. exists (fun a => ext (g a)).
    rewrite E, map_map. apply map_ext. intros r. now rewrite map_map.
  - intros ((ext & E) & ND & _). splits; [|assumption|].
    + exists (fun c => ext (nth (find_pos (map g (concat subs)) c) (concat subs) 0)).
      rewrite E, map_map. apply map_ext_in. intros r Hr. rewrite map_map. apply map_ext_in. intros a Ha. f_equal.
      assert (Hc : In a (concat subs)) by (apply in_concat; eauto).
      assert (Hg : In (g a) (map g (concat subs))) by now apply in_map.
      pose proof (find_pos_lt _ _ Hg) as L. rewrite map_length in L.
      apply J; [assumption|now apply nth_In|].
      rewrite <- map_nth. rewrite nth_indep with (d' := 0) by now rewrite map_length. now rewrite nth_find_pos.
    + intros c Hc. apply in_map_iff in Hc as (a & <- & Ha). rewrite <- concat_map. apply in_map. auto.
Qed.

Lemma tuples_deliver sparse tuples xs s c v : same_named xs -> xs <> [] -> tuples <> [] ->
  einsum_new_shape tuples (map x_shape xs) = Some s ->
  einsum_new_any sparse tuples (map x_name xs) (map x_shape xs) = Some c ->
  (delivers c v <->
   subscripts_fit (input_tuples tuples (length xs)) (output_tuple tuples (length xs)) (map x_shape xs)).
Proof.
  intros S X T ES H. assert (A : einsum_new_shape tuples (map x_shape xs) <> None) by congruence.
  apply tuples_accepts in A. rewrite map_length in A. destruct A as (F & I & _). apply few_names in F.
  unfold einsum_new_any in H. rewrite map_length in H.
  set (ins := input_tuples tuples (length xs)) in *. set (out := output_tuple tuples (length xs)) in *.
  set (sc := Nat.eqb (length xs) (length tuples)) in *.
  assert (ET : tuples = if sc then ins else ins ++ [out]).
  { unfold ins, out, input_tuples, output_tuple. fold sc. destruct sc; [reflexivity|]. now apply app_removelast_last. }
  assert (ES' : sc = true -> out = []) by (unfold out, output_tuple; fold sc; now intros ->).
  destruct (list_eq_dec (list_eq_dec Nat.eq_dec) ins []) as [E0|NE].
  - (* one tuple, two or more operands *)
    assert (Ef : sc = false).
    { destruct sc; [|reflexivity]. congruence. }
    rewrite Ef, E0 in ET. cbn [app] in ET. rewrite E0 in I.
    assert (Eo : out = []) by (destruct out as [|a o]; [reflexivity|destruct (I a (or_introl eq_refl))]).
    rewrite ET, Eo, Ef in H. cbn in H.
    assert (P : np_subscripts [c_minus; c_gt] = Some ([[]], [])) by reflexivity.
    rewrite (einsum_delivers _ _ _ _ _ _ v S P H). rewrite E0, Eo.
    assert (L : length xs <> 1).
    { intros L. apply Nat.eqb_neq in Ef. rewrite ET, Eo in Ef. now apply Ef. }
    split; intros ((ext & E) & _); apply (f_equal (@length _)) in E; rewrite map_length in E; cbn in E; [congruence|].
    destruct xs; [congruence|discriminate].
  - destruct (tuples_to_string ins out sc NE F I ES') as (g & aslist & str & EN & J & P & _).
    rewrite <- ET in EN. rewrite EN in H.
    rewrite (einsum_delivers _ _ _ _ _ _ v S P H). now apply renamed_fit.
Qed.

(** ---- the partials ---- *)

Lemma spare_unused op n : spare op n -> n <= length (unused_chars op).
Proof.
  intros (l & ND & <- & H). apply NoDup_incl_length; [assumption|]. intros c Hc. apply H in Hc as [Hc Hn].
  rewrite unused_chars_eq. apply filter_In. split; [apply in_seq; lia|]. now apply negb_true_iff, mem_not_In.
Qed.

Lemma NoDup_front (l r : list nat) : NoDup (l ++ r) -> NoDup l.
Proof.
  induction l as [|x l IH]; [constructor|]. cbn [app]. rewrite !NoDup_cons_iff, in_app_iff. intuition.
Qed.

(** the derivative by the first operand exists only for subscripts that fit *)
Lemma deriv_fits op r subs out names ins rank s shapes a : np_subscripts op = Some (r :: subs, out) ->
  map shp (inputs_named names ins) = s :: shapes -> rank <= length (unused_chars op) ->
  rank = length s \/ rank = length r ->
  deriv_einsum op names ins 0 rank (identity_tensor s) = Some a ->
  subscripts_fit (r :: subs) out (s :: shapes).
Proof.
  intros P ES U HR E. destruct (parsed_letters _ _ _ P) as (HL & HLo & _).
  destruct (unused_fresh op rank) as (NF & LF & DF). unfold deriv_einsum in E.
  rewrite (tolist_is_parse _ _ _ P), removelast_last, last_last in E. cbn [app nth replace_nth] in E.
  set (fresh := firstn rank (unused_chars op)) in *.
  assert (Hlen : length fresh = rank) by now apply firstn_length_le.
  set (arrays := inputs_named names ins) in *. destruct arrays as [|y arrays]; [discriminate|].
  cbn [map] in ES. injection ES as Ey ES. cbn [replace_nth] in E.
  assert (P' : np_subscripts (to_string (((r ++ fresh) :: subs) ++ [out ++ fresh])) = Some ((r ++ fresh) :: subs, out ++ fresh)).
  { apply parse_to_string; [discriminate| |now apply letters_app].
    intros x [<-|Hx]; [|apply HL; now right]. apply letters_app; [apply HL; now left|assumption]. }
  assert (F : subscripts_fit ((r ++ fresh) :: subs) (out ++ fresh) (map shp (identity_tensor s :: arrays))).
  { apply (einsum_str_iff _ _ _ _ P'). cbn [app] in E |- *. congruence. }
  destruct F as ((ext & F) & ND & I). cbn [map identity_tensor of_fun shp] in F. injection F as F0 F1.
  rewrite map_app in F0. assert (L0 := f_equal (@length _) F0). rewrite !app_length, !map_length in L0.
  assert (Lr : length r = length s) by lia. unfold subscripts_fit. splits.
  - exists ext. cbn [map]. f_equal; [|congruence].
    apply (f_equal (firstn (length s))) in F0. rewrite !firstn_app in F0. rewrite map_length, Lr, Nat.sub_diag in F0.
    rewrite !firstn_O, !app_nil_r, firstn_all in F0. rewrite F0. apply firstn_all2. rewrite map_length. lia.
  - now apply NoDup_front in ND.
  - intros c Hc. assert (Hc' : In c (out ++ fresh)) by (apply in_or_app; now left). apply I in Hc'.
    cbn [concat] in Hc' |- *. rewrite <- app_assoc in Hc'. apply in_app_or in Hc' as [Hc'|Hc']; [apply in_or_app; now left|].
    apply in_app_or in Hc' as [Hc'|Hc']; [|apply in_or_app; now right]. exfalso. apply (DF c Hc').
    eapply parsed_in_op; [exact P|]. now right.
Qed.

Lemma added_none (f : nat -> option (nd R)) l : fold_left (fun acc i => add_same acc (f i)) l None = None.
Proof. now induction l. Qed.

Lemma map_opt_head (A : Type) (f : nat -> option A) n l : map_opt f (seq 0 (S n)) = Some l -> f 0 <> None.
Proof. cbn [seq map_opt]. destruct (f 0); [discriminate|]. discriminate. Qed.

Lemma partials_parts sparse op names shapes c ins p y : einsum_any sparse op names shapes = Some c ->
  c_partials c ins p = Some y ->
  exists os, if sparse then exists pats l, map_opt (sparse_partial op names shapes os pats ins) (seq 0 (length (distinct names))) = Some l
             else exists l, map_opt (einsum_partial op names shapes os ins) (seq 0 (length (distinct names))) = Some l.
Proof.
  unfold einsum_any, einsum_comp, einsum_sparse_comp. intros H Dc.
  destruct (compute_einsum_shape _ shapes) as [os|]; [|destruct sparse; discriminate]. exists os. destruct sparse.
  - destruct (map_opt (sparse_pattern _ _ _ _) _) as [pats|]; [|discriminate]. injection H as <-. cbn [c_partials] in Dc.
    destruct (map_opt _ _) as [l|] eqn:E in Dc; [|discriminate]. eauto.
  - injection H as <-. cbn [c_partials] in Dc. destruct (map_opt _ _) as [l|] eqn:E in Dc; [|discriminate]. eauto.
Qed.

(** partials are only delivered for subscripts that fit *)
Lemma einsum_fits sparse op subs out xs c v : same_named xs -> np_subscripts op = Some (subs, out) -> xs <> [] ->
  (forall r, In r (subs ++ map x_shape xs) -> spare op (length r)) ->
  einsum_any sparse op (map x_name xs) (map x_shape xs) = Some c ->
  differentiates c v -> subscripts_fit subs out (map x_shape xs).
Proof.
  intros SN P X U H D. pose proof (operand_shapes xs v SN) as OS.
  destruct xs as [|x xs]; [congruence|]. destruct (parsed_letters _ _ _ P) as (_ & _ & NE).
  destruct subs as [|r subs]; [congruence|].
  assert (Us : length (x_shape x) <= length (unused_chars op)).
  { apply spare_unused, U, in_or_app. right. now left. }
  assert (Ur : length r <= length (unused_chars op)).
  { apply spare_unused, U. now left. }
  pose proof (named_shape (x :: xs) x SN (or_introl eq_refl)) as NS. unfold named_shapes in NS.
  pose proof (tolist_is_parse _ _ _ P) as TP.
  set (names := map x_name (x :: xs)) in *. set (shapes := map x_shape (x :: xs)) in *.
  assert (Ed : exists l, distinct names = x_name x :: l).
  { unfold names, distinct. cbn [map dedup]. eauto. }
  destruct Ed as [l Ed].
  assert (Ef : find_pos names (x_name x) = 0) by (unfold names; cbn [map find_pos]; now rewrite Nat.eqb_refl).
  assert (Dc : exists y, c_partials c (inputs_of (map (shape_of_name names shapes) (distinct names)) v) 0 = Some y).
  { assert (EI : c_ins c = map (shape_of_name names shapes) (distinct names)).
    { destruct (einsum_any_parts _ _ _ _ _ H) as (s0 & _ & E & _). exact E. }
    rewrite <- EI. apply D. rewrite EI, map_length, Ed. cbn. lia. }
  destruct Dc as [y Dc]. set (ins := inputs_of _ v) in *.
  destruct (partials_parts _ _ _ _ _ _ _ _ H Dc) as [os PP]. clear H D Dc. destruct sparse.
  - destruct PP as (pats & js & E).
    rewrite Ed in E. cbn [length] in E. apply map_opt_head in E. unfold sparse_partial in E.
    destruct (full_partial op names shapes ins 0) as [a|] eqn:E1; [|congruence]. clear E.
    unfold full_partial in E1. rewrite Ed in E1. cbn [nth map nth_error] in E1. rewrite Ef, NS, TP in E1.
    cbn [nth_error app nth] in E1.
    destruct (deriv_einsum op names ins 0 (length r) (identity_tensor (x_shape x))) as [a0|] eqn:E0.
    + unfold shapes in OS |- *. cbn [map] in OS |- *.
      eapply deriv_fits; [exact P|exact OS|exact Ur|now right|exact E0].
    + rewrite added_none in E1. discriminate.
  - destruct PP as (js & E).
    rewrite Ed in E. cbn [length] in E. apply map_opt_head in E. unfold einsum_partial in E.
    rewrite Ed in E. cbn [nth map] in E. rewrite Ef, NS in E. cbn [nth_error] in E.
    destruct (deriv_einsum op names ins 0 (length (x_shape x)) (identity_tensor (x_shape x))) as [a0|] eqn:E0; [|congruence].
    unfold shapes in OS |- *. cbn [map] in OS |- *.
    eapply deriv_fits; [exact P|exact OS|exact Us|now left|exact E0].
Qed.

Lemma correct_differentiates c M v : correct c M -> differentiates c v.
Proof.
  intros (F & H & D) p Hp. destruct (D v p I Hp) as (j & E & _). eauto.
Qed.

Lemma ordered_dec sparse subs out names : ordered sparse subs out names \/ ~ ordered sparse subs out names.
Proof. apply Classical_Prop.classic. Qed.

Lemma einsum_differentiates sparse op subs out xs c v : same_named xs -> np_subscripts op = Some (subs, out) -> xs <> [] ->
  (sparse = true -> no_empty_axes xs) ->
  (forall r, In r (subs ++ map x_shape xs) -> spare op (length r)) ->
  einsum_any sparse op (map x_name xs) (map x_shape xs) = Some c ->
  (differentiates c v <-> subscripts_fit subs out (map x_shape xs) /\ ordered sparse subs out (map x_name xs)).
Proof.
  intros SN P X NE U H.
  assert (K : subscripts_fit subs out (map x_shape xs) ->
    (ordered sparse subs out (map x_name xs) -> differentiates c v) /\
    (~ ordered sparse subs out (map x_name xs) -> forall ins p, c_partials c ins p = None)).
  { intros ((ext & F) & ND & I).
    assert (L : length subs = length (map x_name xs)).
    { apply (f_equal (@length _)) in F. rewrite !map_length in F. now rewrite map_length. }
    assert (Hs : forall j j', j < length (map x_name xs) -> j' < length (map x_name xs) ->
      nth j (map x_name xs) 0 = nth j' (map x_name xs) 0 -> map ext (nth j subs []) = map ext (nth j' subs [])).
    { intros j j' Hj Hj' E. rewrite map_length in Hj, Hj'.
      rewrite <- !(map_nth (map ext)), <- F. cbn [map].
      set (d := Facts 0 [] []) in *. change 0 with (x_name d) in E. change (@nil nat) with (x_shape d).
      rewrite !map_nth in *. apply SN; [now apply nth_In|now apply nth_In|assumption]. }
    assert (Hu : forall r, In r subs -> length r <= length (unused_chars op)).
    { intros r Hr. apply spare_unused, U, in_or_app. now left. }
    rewrite F in H. unfold ordered. destruct sparse; cbn [einsum_any] in H.
    - assert (Hp : forall l, In l (concat subs) -> 0 < ext l).
      { intros l Hl. apply in_concat in Hl as (r & Hr & Hl). destruct (Nat.eq_dec (ext l) 0) as [E0|]; [|lia].
        assert (Hx : In (map ext r) (map x_shape xs)) by (rewrite F; now apply in_map).
        apply in_map_iff in Hx as (x & Ex & Hx). exfalso. apply (NE eq_refl x Hx). rewrite Ex, <- E0. now apply in_map. }
      destruct (sparse_order op subs out ext _ P L Hs ND I Hu Hp) as [A B]. split.
      + intros O. destruct (A O) as (args & c' & _ & _ & E & C). rewrite E in H. injection H as <-.
        exact (correct_differentiates _ _ v C).
      + intros O ins p. exact (B O c ins p H).
    - destruct (einsum_order op subs out ext _ P L Hs ND I Hu) as [A B]. split.
      + intros O. destruct (A O) as (args & c' & _ & _ & E & C). rewrite E in H. injection H as <-.
        exact (correct_differentiates _ _ v C).
      + intros O ins p. exact (B O c ins p H). }
  split.
  - intros D. assert (F := einsum_fits _ _ _ _ _ _ v SN P X U H D). split; [assumption|].
    destruct (ordered_dec sparse subs out (map x_name xs)) as [O|O]; [assumption|]. exfalso.
    destruct (einsum_any_parts _ _ _ _ _ H) as (s0 & _ & EI & _).
    destruct (D 0) as [j E]; [|rewrite (proj2 (K F) O) in E; discriminate].
    rewrite EI, map_length. destruct xs as [|x xs]; [congruence|]. cbn. lia.
  - intros [F O]. exact (proj1 (K F) O).
Qed.

Lemma renamed_keeps (g : nat -> nat) subs out names m : length subs = length names -> incl out (concat subs) ->
  (forall a b, In a (concat subs) -> In b (concat subs) -> g a = g b -> a = b) ->
  (keeps (map (map g) subs) (map g out) names m <-> keeps subs out names m).
Proof.
  intros L I J. unfold keeps. split; intros K j Hj E; destruct (K j Hj E) as (l & Hl & Ho).
  - change (@nil nat) with (map g []) in Hl. rewrite map_nth in Hl.
    apply in_map_iff in Hl as (a & <- & Ha). apply in_map_iff in Ho as (b & E' & Hb). exists a. split; [assumption|].
    assert (b = a); [|now subst]. apply J; [auto| |assumption]. apply in_concat. exists (nth j subs []).
    split; [apply nth_In; lia|assumption].
  - exists (g l). split; [|now apply in_map]. change (@nil nat) with (map g []). rewrite map_nth. now apply in_map.
Qed.

Lemma renamed_ordered (g : nat -> nat) sparse subs out names : length subs = length names -> incl out (concat subs) ->
  (forall a b, In a (concat subs) -> In b (concat subs) -> g a = g b -> a = b) ->
  (ordered sparse (map (map g) subs) (map g out) names <-> ordered sparse subs out names).
Proof.
  intros L I J. unfold ordered. destruct sparse; [|reflexivity]. unfold kept_first.
  assert (K := fun m => renamed_keeps g subs out names m L I J).
  split; intros (ds & rs & E & ND & IN & Q); exists ds, rs; splits; auto; intros q q' Hq Hq' Kq;
    apply K, (Q q q' Hq Hq'), K, Kq.
Qed.

Lemma tuples_differentiate sparse tuples xs s c v : same_named xs -> xs <> [] -> tuples <> [] ->
  (sparse = true -> no_empty_axes xs) ->
  (forall r axes, In r (input_tuples tuples (length xs) ++ map x_shape xs) -> NoDup axes ->
     incl axes (concat (input_tuples tuples (length xs))) -> length r + length axes <= 26) ->
  einsum_new_shape tuples (map x_shape xs) = Some s ->
  einsum_new_any sparse tuples (map x_name xs) (map x_shape xs) = Some c ->
  (differentiates c v <->
   subscripts_fit (input_tuples tuples (length xs)) (output_tuple tuples (length xs)) (map x_shape xs) /\
   ordered sparse (input_tuples tuples (length xs)) (output_tuple tuples (length xs)) (map x_name xs)).
Proof.
  intros S X T NEA U ES H. assert (A : einsum_new_shape tuples (map x_shape xs) <> None) by congruence.
  apply tuples_accepts in A. rewrite map_length in A. destruct A as (F & I & _). apply few_names in F.
  unfold einsum_new_any in H. rewrite map_length in H.
  set (ins := input_tuples tuples (length xs)) in *. set (out := output_tuple tuples (length xs)) in *.
  set (sc := Nat.eqb (length xs) (length tuples)) in *.
  assert (ET : tuples = if sc then ins else ins ++ [out]).
  { unfold ins, out, input_tuples, output_tuple. fold sc. destruct sc; [reflexivity|]. now apply app_removelast_last. }
  assert (ES' : sc = true -> out = []) by (unfold out, output_tuple; fold sc; now intros ->).
  assert (SP : forall str r, length (dedup (concat ins)) <= 26 -> 26 - length (dedup (concat ins)) <= length (unused_chars str) ->
    In r (ins ++ map x_shape xs) -> spare str (length r)).
  { intros str r L26 L Hr. specialize (U r (dedup (concat ins)) Hr (dedup_NoDup _) ltac:(intros a Ha; now apply dedup_In)).
    exists (firstn (length r) (unused_chars str)). destruct (unused_fresh str (length r)) as (NF & LF & DF). splits.
    - assumption.
    - apply firstn_length_le. lia.
    - intros c0 Hc. pose proof (firstn_In _ _ _ _ Hc) as Hc'. rewrite unused_chars_eq in Hc'. apply filter_In in Hc' as [Hc1 Hc2].
      apply in_seq in Hc1. split; [lia|]. now apply mem_not_In, negb_true_iff. }
  destruct (list_eq_dec (list_eq_dec Nat.eq_dec) ins []) as [E0|NE].
  - (* one tuple, two or more operands *)
    assert (Ef : sc = false).
    { destruct sc; [|reflexivity]. congruence. }
    rewrite Ef, E0 in ET. cbn [app] in ET. rewrite E0 in I.
    assert (Eo : out = []) by (destruct out as [|a o]; [reflexivity|destruct (I a (or_introl eq_refl))]).
    rewrite ET, Eo, Ef in H. cbn in H.
    assert (P : np_subscripts [c_minus; c_gt] = Some ([[]], [])) by reflexivity.
    assert (L : length xs <> 1).
    { intros L. apply Nat.eqb_neq in Ef. rewrite ET, Eo in Ef. now apply Ef. }
    rewrite (einsum_differentiates _ _ _ _ _ _ v S P X NEA); [| |exact H].
    + rewrite E0, Eo.
      split; intros (((ext & E) & _) & _); apply (f_equal (@length _)) in E; rewrite map_length in E; cbn in E; [congruence|].
      destruct xs; [congruence|discriminate].
    + intros r [<-|Hr]; [exists []; splits; [constructor|reflexivity|intros ? []]|]. apply SP; rewrite E0; cbn; [lia|lia|assumption].
  - assert (EN := new_subscripts_ok ins out sc NE F I ES'). cbv zeta in EN.
    set (g := letter (dedup (concat ins))) in *. rewrite <- ET in EN. rewrite EN in H.
    assert (J : forall a b, In a (concat ins) -> In b (concat ins) -> g a = g b -> a = b).
    { intros a b Ha Hb. apply letter_inj; now apply dedup_In. }
    assert (P : np_subscripts (to_string (map (map g) ins ++ [map g out])) = Some (map (map g) ins, map g out)).
    { apply parse_to_string.
      - intros E. apply map_eq_nil in E. congruence.
      - intros r Hr. apply in_map_iff in Hr as (t & <- & Ht). apply letter_letters; [assumption|].
        intros a Ha. apply dedup_In. apply in_concat. eauto.
      - apply letter_letters; [assumption|]. intros a Ha. apply dedup_In. auto. }
    rewrite (einsum_differentiates _ _ _ _ _ _ v S P X NEA); [| |exact H].
    + rewrite (renamed_fit g ins out _ I J). split; intros [FI O]; (split; [assumption|]).
      * apply (renamed_ordered g); auto. destruct FI as ((ext & E) & _). apply (f_equal (@length _)) in E.
        rewrite !map_length in E. now rewrite map_length.
      * apply (renamed_ordered g); auto. destruct FI as ((ext & E) & _). apply (f_equal (@length _)) in E.
        rewrite !map_length in E. now rewrite map_length.
    + pose proof (unused_letters ins out F I NE) as UL. intros r Hr. apply in_app_or in Hr as [Hr|Hr].
      * apply in_map_iff in Hr as (t & <- & Ht). rewrite map_length. apply SP; auto. apply in_or_app. now left.
      * apply SP; auto. apply in_or_app. now right.
Qed.
