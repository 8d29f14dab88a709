From Coq Require Import String QArith.
From Verif Require Import PyBase Options SpecOptions.
Open Scope nat_scope.

Section Proofs.
Variable supers : nat -> list nat.
Local Notation assert_valid := (assert_valid supers).
Local Notation satisfies := (satisfies supers).
Local Notation setitem := (setitem supers).
Local Notation declare := (declare supers).
Local Notation update := (update supers).
Local Notation ostep := (ostep supers).
Local Notation orun := (orun supers).

(** * Values *)
Lemma amount_iff v x : number v = Some x <-> amount v x.
Proof.
  split.
  - destruct v as [|b|z|f|s|i c h]; simpl; try discriminate; intros E; injection E as <-.
    + destruct b; constructor.
    + constructor.
    + constructor.
  - intros H; destruct H; reflexivity.
Qed.

Lemma fl_eq_iff a b : fl_eq a b = true <-> fl_same a b.
Proof. destruct a, b; simpl; try apply Qeq_bool_iff; split; try discriminate; try tauto; auto. Qed.

Lemma fl_lt_iff a b : fl_lt a b = true <-> fl_less a b.
Proof.
  destruct a as [x| | |], b as [y| | |]; simpl; try (split; (discriminate || tauto)).
  rewrite negb_true_iff. split.
  - intros H. apply Qnot_le_lt. intros L. apply Qle_bool_iff in L. congruence.
  - intros H. destruct (Qle_bool y x) eqn:E; [|reflexivity]. apply Qle_bool_iff in E. exfalso. exact (Qlt_not_le _ _ H E).
Qed.

Lemma amount_inj v x y : amount v x -> amount v y -> x = y.
Proof. intros H1 H2. apply amount_iff in H1. apply amount_iff in H2. congruence. Qed.

Lemma same_value_iff v w : py_eq v w = true <-> same_value v w.
Proof.
  unfold py_eq. split.
  - destruct (number v) as [x|] eqn:E1, (number w) as [y|] eqn:E2; try discriminate.
    + intros H. apply fl_eq_iff in H. apply same_numbers with x y; auto; now apply amount_iff.
    + destruct v, w; try discriminate; intros H.
      * constructor.
      * apply String.eqb_eq in H. subst. constructor.
      * apply Nat.eqb_eq in H. subst. constructor.
  - intros H; destruct H as [v w x y A1 A2 F| |s|i c h c' h'].
    + apply amount_iff in A1. apply amount_iff in A2. rewrite A1, A2. now apply fl_eq_iff.
    + reflexivity.
    + simpl. apply String.eqb_refl.
    + simpl. apply Nat.eqb_refl.
Qed.

Lemma of_class_iff v t : instance_of supers v t = true <-> of_class supers v t.
Proof.
  split.
  - destruct t, v; simpl; try discriminate; intros H; try constructor.
    apply existsb_exists in H. destruct H as (x & Hx & E). apply Nat.eqb_eq in E. now subst.
  - intros H; destruct H; try reflexivity.
    + simpl. apply existsb_exists. exists c. split; [assumption|apply Nat.eqb_refl].
Qed.

Lemma at_least_iff v l : py_lt v l = Ok false <-> at_least v l.
Proof.
  unfold py_lt, at_least. split.
  - destruct (number v) as [x|] eqn:E1, (number l) as [y|] eqn:E2.
    + intros H. injection H as H. left. exists x, y. splits; try (now apply amount_iff).
      intros F. apply fl_lt_iff in F. congruence.
    + destruct v, l; discriminate.
    + destruct v, l; discriminate.
    + destruct v as [|b|z|f|s|i c h], l as [|b'|z'|f'|s'|i' c' h']; try discriminate. intros H. injection H as H.
      right. exists s, s'. splits; auto. unfold String.ltb in H. intros E. rewrite E in H. discriminate.
  - intros [(x & y & A1 & A2 & F)|(s & t & -> & -> & C)].
    + apply amount_iff in A1. apply amount_iff in A2. rewrite A1, A2. f_equal.
      destruct (fl_lt x y) eqn:E; [|reflexivity]. apply fl_lt_iff in E. contradiction.
    + simpl. f_equal. unfold String.ltb. destruct (String.compare s t); congruence.
Qed.

Lemma hashable_iff v : is_hashable v = true <-> forall i c, v <> VObj i c false.
Proof.
  split.
  - intros H i c ->. discriminate.
  - intros H. destruct v as [| | | | |i c []]; try reflexivity. now elim (H i c).
Qed.

(** * Validity *)
Lemma check_values_ok v va : check_values v va = Ok tt <-> listed v va.
Proof.
  unfold listed. destruct va as [l|l|]; simpl.
  - destruct (existsb (py_eq v) l) eqn:E; split; try discriminate; intros H; auto.
    + apply existsb_exists in E. exists l. split; [auto|]. destruct E as (w & Hw & E). exists w. split; [auto|].
      now apply same_value_iff.
    + destruct H as (l' & [Q|[Q _]] & w & Hw & EQ); [|discriminate]. injection Q as <-. apply same_value_iff in EQ.
      assert (existsb (py_eq v) l = true) by (apply existsb_exists; eauto). congruence.
  - destruct (is_hashable v) eqn:Eh.
    + pose proof (proj1 (hashable_iff v) Eh) as Eh'.
      destruct (existsb (py_eq v) l) eqn:E; split; try discriminate; intros H; auto.
      * apply existsb_exists in E. exists l. split; [auto|]. destruct E as (w & Hw & E). exists w. split; [auto|].
        now apply same_value_iff.
      * destruct H as (l' & [Q|[Q _]] & w & Hw & EQ); [discriminate|]. injection Q as <-. apply same_value_iff in EQ.
        assert (existsb (py_eq v) l = true) by (apply existsb_exists; eauto). congruence.
    + split; [discriminate|]. intros (l' & [Q|[_ Q]] & _); [discriminate|]. apply hashable_iff in Q. congruence.
  - split; [discriminate|]. intros (l' & [Q|[Q _]] & _); discriminate.
Qed.

Lemma check_types_ok v ta : check_types supers v ta = Ok tt <-> typed supers v ta.
Proof.
  unfold typed. destruct ta as [t|l|l|]; simpl.
  - destruct (instance_of supers v t) eqn:E; split; try discriminate; intros H; auto.
    + exists [t]. split; [right; exists t; auto|]. exists t. split; [now left|now apply of_class_iff].
    + destruct H as (l & [Q|(t' & Q & ->)] & w & Hw & EQ); [discriminate|]. injection Q as <-.
      destruct Hw as [<-|[]]. apply of_class_iff in EQ. congruence.
  - destruct (existsb (instance_of supers v) l) eqn:E; split; try discriminate; intros H; auto.
    + apply existsb_exists in E. destruct E as (t & Ht & E). exists l. split; [auto|]. exists t. split; [auto|now apply of_class_iff].
    + destruct H as (l' & [Q|(t' & Q & _)] & w & Hw & EQ); [|discriminate]. injection Q as <-. apply of_class_iff in EQ.
      assert (existsb (instance_of supers v) l = true) by (apply existsb_exists; eauto). congruence.
  - split; [discriminate|]. intros (l' & [Q|(t & Q & _)] & _); discriminate.
  - split; [discriminate|]. intros (l' & [Q|(t & Q & _)] & _); discriminate.
Qed.

Lemma check_upper_ok v u : check_upper v u = Ok tt <-> forall x, u = Some x -> at_most v x.
Proof.
  unfold check_upper, at_most. destruct u as [u|].
  - destruct (py_lt u v) as [[|]|e] eqn:E; split; try discriminate; intros H; auto.
    + specialize (H u eq_refl). apply at_least_iff in H. congruence.
    + intros x Q. injection Q as <-. now apply at_least_iff.
    + specialize (H u eq_refl). apply at_least_iff in H. congruence.
  - split; [discriminate|auto].
Qed.
Lemma check_lower_ok v u : check_lower v u = Ok tt <-> forall x, u = Some x -> at_least v x.
Proof.
  unfold check_lower. destruct u as [u|].
  - destruct (py_lt v u) as [[|]|e] eqn:E; split; try discriminate; intros H; auto.
    + specialize (H u eq_refl). apply at_least_iff in H. congruence.
    + intros x Q. injection Q as <-. now apply at_least_iff.
    + specialize (H u eq_refl). apply at_least_iff in H. congruence.
  - split; [discriminate|auto].
Qed.

Lemma bind_unit_ok a b : bind_unit a b = Ok tt <-> a = Ok tt /\ b = Ok tt.
Proof. destruct a as [[]|e]; simpl; split; try tauto; try discriminate; intros [Q _]; discriminate. Qed.

Lemma assert_valid_iff d v : assert_valid d v = Ok tt <-> satisfies d v.
Proof.
  unfold Options.assert_valid, SpecOptions.satisfies. rewrite bind_unit_ok.
  assert (C : (match d_check d with Some f => match f v with Some e => Raise e | None => Ok tt end | None => Ok tt end)
     = Ok tt <-> forall f, d_check d = Some f -> f v = None).
  { destruct (d_check d) as [f|].
    - destruct (f v) eqn:E; split; try discriminate; intros H; auto.
      + specialize (H f eq_refl). congruence.
      + intros g Q. now injection Q as <-.
    - split; [discriminate|auto]. }
  rewrite C. clear C. apply and_iff_compat_r.
  assert (G : bind_unit (match d_values d with Some va => check_values v va
                | None => match d_types d with Some ta => check_types supers v ta | None => Ok tt end end)
              (bind_unit (check_upper v (d_upper d)) (check_lower v (d_lower d))) = Ok tt <->
     (forall va, d_values d = Some va -> listed v va)
       /\ (d_values d = None -> forall ta, d_types d = Some ta -> typed supers v ta)
       /\ (forall u, d_upper d = Some u -> at_most v u)
       /\ (forall l, d_lower d = Some l -> at_least v l)).
  { rewrite !bind_unit_ok, check_upper_ok, check_lower_ok.
    destruct (d_values d) as [va|].
    - rewrite check_values_ok. split.
      + intros (A & B & C). splits; auto; try discriminate. intros va' Q. now injection Q as <-.
      + intros (A & _ & B & C). splits; auto.
    - destruct (d_types d) as [ta|].
      + rewrite check_types_ok. split.
        * intros (A & B & C). splits; auto; try discriminate. intros _ ta' Q. now injection Q as <-.
        * intros (_ & A & B & C). splits; auto.
      + split.
        * intros (A & B & C). splits; auto; discriminate.
        * intros (_ & A & B & C). splits; auto. }
  destruct v as [| | | | |]; try (rewrite G; clear G; split; [auto|intros [[Q _]|H]; [discriminate|assumption]]).
  destruct (d_allow_none d) eqn:AN.
  - split; auto.
  - rewrite G. split; [auto|]. intros [[_ Q]|H]; [discriminate|assumption].
Qed.

Lemma assert_invalid d v : ~ satisfies d v -> exists e, assert_valid d v = Raise e.
Proof.
  intros H. destruct (assert_valid d v) as [[]|e] eqn:E; [|eauto]. now apply assert_valid_iff in E.
Qed.

(** * The dictionary *)
Lemma dget_set d n m k : dget (dset d n m) k = if Nat.eqb n k then Some m else dget d k.
Proof.
  induction d as [|[x y] d IH]; simpl.
  - reflexivity.
  - destruct (Nat.eqb_spec x n) as [->|N1]; simpl.
    + destruct (Nat.eqb n k); reflexivity.
    + rewrite IH. destruct (Nat.eqb_spec x k), (Nat.eqb_spec n k); auto. subst. contradiction.
Qed.
Lemma dget_del d n k : NoDup (map fst d) -> dget (ddel d n) k = if Nat.eqb n k then None else dget d k.
Proof.
  induction d as [|[x y] d IH]; simpl; intros ND.
  - now destruct (Nat.eqb n k).
  - inversion ND as [|? ? NI ND']; subst. destruct (Nat.eqb_spec x n) as [->|N1]; simpl.
    + destruct (Nat.eqb_spec n k) as [->|N2]; [|reflexivity].
      clear - NI. induction d as [|[x y] d IH]; simpl in *; [reflexivity|].
      destruct (Nat.eqb_spec x k); [subst; tauto|]. apply IH. tauto.
    + rewrite IH by assumption. destruct (Nat.eqb_spec x k), (Nat.eqb_spec n k); auto. subst. contradiction.
Qed.
Lemma dset_keys d n m : NoDup (map fst d) -> NoDup (map fst (dset d n m)) /\ (forall k, In k (map fst (dset d n m)) <-> In k (map fst d) \/ k = n).
Proof.
  induction d as [|[x y] d IH]; simpl; intros ND.
  - split; [repeat constructor; simpl; tauto|]. intuition.
  - inversion ND as [|? ? NI ND']; subst. destruct (IH ND') as [A B].
    destruct (Nat.eqb_spec x n) as [->|N1]; simpl.
    + split; [assumption|]. intuition.
    + split; [constructor; [|assumption]; rewrite B; intros [Q|Q]; congruence|].
      intros k. rewrite B. intuition.
Qed.
Lemma ddel_keys d n : NoDup (map fst d) -> NoDup (map fst (ddel d n)) /\ incl (map fst (ddel d n)) (map fst d).
Proof.
  induction d as [|[x y] d IH]; simpl; intros ND; [split; [constructor|intros ? []]|].
  inversion ND as [|? ? NI ND']; subst. destruct (IH ND') as [A B].
  destruct (Nat.eqb_spec x n); simpl.
  - split; [assumption|]. intros k. simpl. tauto.
  - split; [constructor; auto|]. intros k [<-|H]; simpl; auto.
Qed.

Definition wf (o : options) : Prop := NoDup (map fst (odict o)).
Definition entry (o : options) (n : nat) := dget (odict o) n.
(** Entries whose value, if set, satisfies their declaration. *)
Definition valid_entry (m : meta) : Prop :=
  (m_set m = true -> exists v, m_value m = Some v /\ satisfies (m_decl m) v).

(** * One call *)
Lemma setitem_spec o n v :
  (entry o n = None -> setitem o n v = (o, Raise KeyError))
  /\ (read_only o = true -> setitem o n v = (o, Raise KeyError))
  /\ (forall m, entry o n = Some m -> read_only o = false ->
        (satisfies (m_decl m) v ->
           setitem o n v = (Options (dset (odict o) n (Meta (m_decl m) (Some v) true)) false, Ok tt))
        /\ (~ satisfies (m_decl m) v -> exists e, setitem o n v = (o, Raise e))).
Proof.
  unfold Options.setitem, entry. splits.
  - now intros ->.
  - intros R. destruct (dget (odict o) n); [|reflexivity]. now rewrite R.
  - intros m E R. rewrite E, R. split.
    + intros S. apply assert_valid_iff in S. now rewrite S.
    + intros S. destruct (assert_invalid _ _ S) as [e Q]. rewrite Q. eauto.
Qed.

Lemma setitem_cases o n v o' r : setitem o n v = (o', r) ->
  (exists e, r = Raise e /\ o' = o)
  \/ (r = Ok tt /\ read_only o = false /\ exists m, entry o n = Some m /\ satisfies (m_decl m) v
      /\ o' = Options (dset (odict o) n (Meta (m_decl m) (Some v) true)) false).
Proof.
  unfold Options.setitem, entry. destruct (dget (odict o) n) as [m|] eqn:E.
  2: { intros Q. injection Q as <- <-. eauto. }
  destruct (read_only o) eqn:R.
  { intros Q. injection Q as <- <-. eauto. }
  destruct (assert_valid (m_decl m) v) as [[]|e] eqn:AV; intros Q; injection Q as <- <-.
  - right. apply assert_valid_iff in AV. splits; auto. eauto.
  - eauto.
Qed.

(** * Histories *)
(** Everything the theorems need of a state, relative to the declarations in force. *)
Definition agrees (o : options) (f : nat -> option decl) : Prop :=
  wf o /\ forall n, match entry o n with
                    | Some m => f n = Some (m_decl m) /\ valid_entry m
                    | None => f n = None
                    end.

Lemma agrees_set o f n v o' r : agrees o f -> setitem o n v = (o', r) -> agrees o' f.
Proof.
  intros [W A] E. destruct (setitem_cases _ _ _ _ _ E) as [(e & _ & ->)|(_ & R & m & EM & S & ->)]; [now split|].
  split.
  - now apply dset_keys.
  - intros k. unfold entry in *. cbn [odict]. rewrite dget_set. specialize (A k).
    destruct (Nat.eqb_spec n k) as [->|]; [|exact A]. rewrite EM in A. split; [tauto|].
    intros _. cbn. eauto.
Qed.

Lemma agrees_update : forall l o f o' r, agrees o f -> update o l = (o', r) -> agrees o' f.
Proof.
  induction l as [|[k v] l IH]; intros o f o' r A E; cbn [Options.update] in E.
  - now injection E as <- <-.
  - destruct (setitem o k v) as [o1 r1] eqn:E1. pose proof (agrees_set _ _ _ _ _ _ A E1) as A1.
    destruct r1 as [u|e]; [eauto|]. now injection E as <- <-.
Qed.

Lemma declare_ok o n d : wellformed d ->
  declare o n d = (Options (dset (odict o) n (Meta d (d_default d)
                     (match d_default d with Some _ => true | None => false end))) (read_only o),
                   match d_default d with Some v => assert_valid d v | None => Ok tt end).
Proof.
  intros (W1 & W2 & W3). unfold Options.declare.
  destruct (d_values d) as [[l|l|]|], (d_types d) as [[t|l'|l'|]|]; try reflexivity; try congruence;
    destruct W3 as [W3|W3]; discriminate.
Qed.

Lemma declare_malformed o n d : ~ wellformed d -> exists e, declare o n d = (o, Raise e).
Proof.
  intros NW. unfold Options.declare, wellformed in *.
  destruct (d_values d) as [[l|l|]|], (d_types d) as [[t|l'|l'|]|]; eauto;
    exfalso; apply NW; splits; auto; discriminate.
Qed.

Lemma wellformed_dec d : wellformed d \/ ~ wellformed d.
Proof.
  unfold wellformed. destruct (d_values d) as [[l|l|]|], (d_types d) as [[t|l'|l'|]|];
    try (left; splits; auto; discriminate); right; intros (A & B & [C|C]); congruence.
Qed.

Lemma agrees_declare o f n d o' : agrees o f -> declare o n d = (o', Ok tt) ->
  agrees o' (fun k => if Nat.eqb n k then Some d else f k).
Proof.
  intros [W A] E. destruct (wellformed_dec d) as [WD|WD].
  2: { destruct (declare_malformed o n d WD) as [e Q]. congruence. }
  rewrite declare_ok in E by assumption. injection E as <- EV. split.
  - now apply dset_keys.
  - intros k. unfold entry in *. cbn [odict]. rewrite dget_set. destruct (Nat.eqb n k); [|apply A].
    split; [reflexivity|]. unfold valid_entry. cbn. destruct (d_default d) as [v|]; [|discriminate].
    intros _. exists v. split; [reflexivity|]. now apply assert_valid_iff.
Qed.

Lemma agrees_undeclare o f n : agrees o f -> agrees (undeclare o n) (fun k => if Nat.eqb n k then None else f k).
Proof.
  intros [W A]. split.
  - now apply ddel_keys.
  - intros k. unfold entry, undeclare in *. cbn [odict]. rewrite dget_del by exact W.
    destruct (Nat.eqb n k); [reflexivity|apply A].
Qed.

Lemma agrees_ext o f g : agrees o f -> (forall n, f n = g n) -> agrees o g.
Proof. intros [W A] E. split; [assumption|]. intros n. specialize (A n). rewrite E in A. exact A. Qed.

Lemma run_agrees : forall h o f o' rs, agrees o f -> orun o h = (o', rs) -> declarations_ok h rs ->
  agrees o' (fun n => in_force h n (f n)).
Proof.
  induction h as [|c h IH]; intros o f o' rs A E D; cbn [Options.orun] in E.
  - injection E as <- <-. exact A.
  - destruct (ostep o c) as [o1 x] eqn:E1. destruct (orun o1 h) as [o2 xs] eqn:E2. injection E as <- <-.
    assert (D' : declarations_ok h xs) by (intros i n d H; exact (D (S i) n d H)).
    destruct c as [n d|n|n v|l]; cbn [Options.ostep in_force] in *.
    + assert (Q := D 0 n d eq_refl). cbn in Q. injection Q as ->.
      apply (agrees_ext _ _ _ (IH _ _ _ _ (agrees_declare _ _ _ _ _ A E1) E2 D')). reflexivity.
    + injection E1 as <- <-.
      apply (agrees_ext _ _ _ (IH _ _ _ _ (agrees_undeclare _ _ n A) E2 D')). reflexivity.
    + exact (IH _ _ _ _ (agrees_set _ _ _ _ _ _ A E1) E2 D').
    + exact (IH _ _ _ _ (agrees_update _ _ _ _ _ A E1) E2 D').
Qed.

Lemma agrees_new ro : agrees (onew ro) (fun _ => None).
Proof. split; [constructor|]. reflexivity. Qed.

(** C62 *)
Lemma read_values_valid ro h o rs name v : orun (onew ro) h = (o, rs) -> declarations_ok h rs ->
  getitem o name = Ok v -> exists d, in_force h name None = Some d /\ satisfies d v.
Proof.
  intros E D G. destruct (run_agrees _ _ _ _ _ (agrees_new ro) E D) as [_ A]. specialize (A name).
  unfold getitem in G. unfold entry in A. destruct (dget (odict o) name) as [m|]; [|discriminate].
  destruct A as [A1 A2]. destruct (m_set m) eqn:MS; [|discriminate].
  destruct (A2 MS) as (w & EW & S). rewrite EW in G. injection G as <-. eauto.
Qed.

(** Reading fails only for options that are not declared or have no value. *)
Lemma read_errors ro h o rs name : orun (onew ro) h = (o, rs) -> declarations_ok h rs ->
  (in_force h name None = None <-> getitem o name = Raise KeyError)
  /\ (forall e, getitem o name = Raise e -> e = KeyError \/ e = RuntimeError)
  /\ (contains o name = true <-> in_force h name None <> None).
Proof.
  intros E D. destruct (run_agrees _ _ _ _ _ (agrees_new ro) E D) as [_ A]. specialize (A name).
  unfold getitem, contains. unfold entry in A. destruct (dget (odict o) name) as [m|].
  - destruct A as [A1 A2]. rewrite A1. destruct (m_set m) eqn:MS.
    + destruct (A2 MS) as (w & -> & _). splits; try (split; congruence). discriminate.
    + splits; try (split; congruence). intros e Q. injection Q as <-. auto.
  - rewrite A. splits; try (split; congruence). intros e Q. injection Q as <-. auto.
Qed.

(** C63 *)
Lemma failed_set o n v o' e : setitem o n v = (o', Raise e) -> o' = o.
Proof. intros E. destruct (setitem_cases _ _ _ _ _ E) as [(e' & _ & ->)|(Q & _)]; [reflexivity|discriminate]. Qed.

Lemma good_set o n v o' : setitem o n v = (o', Ok tt) ->
  getitem o' n = Ok v /\ (forall k, k <> n -> getitem o' k = getitem o k)
  /\ (forall k, contains o' k = contains o k) /\ read_only o' = read_only o.
Proof.
  intros E. destruct (setitem_cases _ _ _ _ _ E) as [(e & Q & _)|(_ & R & m & EM & S & ->)]; [discriminate|].
  unfold getitem, contains, entry in *. cbn [odict read_only]. splits.
  - now rewrite dget_set, Nat.eqb_refl.
  - intros k Hk. rewrite dget_set. destruct (Nat.eqb_spec n k); [congruence|reflexivity].
  - intros k. rewrite dget_set. destruct (Nat.eqb_spec n k) as [->|]; [now rewrite EM|reflexivity].
  - now rewrite R.
Qed.

Lemma set_iff ro h o rs n v : orun (onew ro) h = (o, rs) -> declarations_ok h rs ->
  (snd (setitem o n v) = Ok tt <->
   ro = false /\ exists d, in_force h n None = Some d /\ satisfies d v).
Proof.
  intros E D. destruct (run_agrees _ _ _ _ _ (agrees_new ro) E D) as [_ A]. specialize (A n).
  assert (RO : read_only o = ro).
  { assert (G : forall h o o' rs, orun o h = (o', rs) -> read_only o' = read_only o).
    { clear. induction h as [|c h IH]; intros o o' rs E; cbn [Options.orun] in E; [now injection E as <-|].
      destruct (ostep o c) as [o1 x] eqn:E1. destruct (orun o1 h) as [o2 xs] eqn:E2. injection E as <- <-.
      rewrite (IH _ _ _ E2). clear E2 IH.
      assert (ST : forall o n v o' r, setitem o n v = (o', r) -> read_only o' = read_only o).
      { intros a k v a' r E. destruct (setitem_cases _ _ _ _ _ E) as [(e & _ & ->)|(_ & R & m & _ & _ & ->)]; auto. }
      destruct c as [n d|n|n v|l]; cbn [Options.ostep] in E1.
      - unfold Options.declare in E1. destruct (d_values d) as [[?|?|]|], (d_types d) as [[?|?|?|]|]; now injection E1 as <- _.
      - now injection E1 as <- _.
      - now apply ST in E1.
      - revert o E1. induction l as [|[k v] l IH]; intros o E1; cbn [Options.update] in E1; [now injection E1 as <- _|].
        destruct (setitem o k v) as [oo [u|e]] eqn:Q.
        + rewrite (IH _ E1). now apply ST in Q.
        + injection E1 as <- _. now apply ST in Q. }
    now apply (G h (onew ro) o rs). }
  destruct (setitem_spec o n v) as (S1 & S2 & S3). unfold entry in *.
  destruct (dget (odict o) n) as [m|].
  - destruct A as [A1 _]. destruct (read_only o) eqn:R.
    + rewrite S2 by reflexivity. split; [discriminate|]. intros [Q _]. congruence.
    + destruct (S3 m eq_refl eq_refl) as [S4 S5]. split.
      * intros Q. split; [congruence|]. exists (m_decl m). split; [assumption|].
        destruct (assert_valid (m_decl m) v) as [[]|e] eqn:AV; [now apply assert_valid_iff|].
        destruct S5 as [e' S5]. { rewrite <- assert_valid_iff. congruence. } rewrite S5 in Q. discriminate.
      * intros (_ & d & Q & S). rewrite A1 in Q. injection Q as <-. now rewrite S4.
  - rewrite S1 by reflexivity. split; [discriminate|]. intros (_ & d & Q & _). congruence.
Qed.

(** update applies the entries in order, up to the first that is refused. *)
Lemma update_prefix : forall l o o' r, update o l = (o', r) ->
  exists p q, l = p ++ q /\ (exists rs, orun o (map (fun kv => OSet (fst kv) (snd kv)) p) = (o', rs) /\ forall x, In x rs -> x = Ok tt)
    /\ ((r = Ok tt /\ q = [])
        \/ exists k v q' e, q = (k, v) :: q' /\ r = Raise e /\ setitem o' k v = (o', Raise e)).
Proof.
  induction l as [|[k v] l IH]; intros o o' r E; cbn [Options.update] in E.
  - injection E as <- <-. exists [], []. split; [reflexivity|]. split; [exists []; split; [reflexivity|intros x []]|auto].
  - destruct (setitem o k v) as [o1 [[]|e]] eqn:E1.
    + destruct (IH _ _ _ E) as (p & q & -> & (rs & R1 & R2) & C).
      exists ((k, v) :: p), q. split; [reflexivity|]. split; [|exact C].
      exists (Ok tt :: rs). cbn [map Options.orun Options.ostep fst snd]. rewrite E1, R1. split; [reflexivity|].
      intros x [<-|H]; auto.
    + injection E as <- <-. pose proof (failed_set _ _ _ _ _ E1) as ->.
      exists [], ((k, v) :: l). split; [reflexivity|]. split; [exists []; split; [reflexivity|intros x []]|].
      right. exists k, v, l, e. auto.
Qed.

(** C64 *)
Lemma bad_default o n d v : wellformed d -> d_default d = Some v -> ~ satisfies d v ->
  exists e o', declare o n d = (o', Raise e) /\ getitem o' n = Ok v.
Proof.
  intros W ED NS. destruct (assert_invalid _ _ NS) as [e AV].
  rewrite declare_ok by assumption. rewrite ED, AV. eexists e, _. split; [reflexivity|].
  unfold getitem. cbn [odict]. now rewrite dget_set, Nat.eqb_refl.
Qed.

(** Bounds on numbers mean what they say, NaN excepted. *)
Lemma at_least_numbers v u x y : amount v (Fin x) -> amount u (Fin y) -> (at_least v u <-> (y <= x)%Q).
Proof.
  intros E1 E2. split.
  - intros [(x' & y' & A1 & A2 & F)|(s & t & -> & _)]; [|inversion E1].
    rewrite <- (amount_inj _ _ _ E1 A1), <- (amount_inj _ _ _ E2 A2) in F. now apply Qnot_lt_le.
  - intros H. left. exists (Fin x), (Fin y). splits; auto. simpl. intros L. exact (Qlt_not_le _ _ L H).
Qed.
Lemma at_most_numbers v u x y : amount v (Fin x) -> amount u (Fin y) -> (at_most v u <-> (x <= y)%Q).
Proof. intros E1 E2. now apply at_least_numbers. Qed.

(** A list or set of types admits nothing. *)
Lemma list_types_admit_nothing d l v : d_values d = None -> d_types d = Some (TypesListOrSet l) ->
  v <> VNone -> ~ satisfies d v.
Proof.
  intros E1 E2 NV [[[Q _]|(_ & H & _)] _]; [contradiction|].
  destruct (H E1 _ E2) as (l' & [Q|(t & Q & _)] & _); discriminate.
Qed.

Lemma list_types_useless d l v : wellformed d -> d_types d = Some (TypesListOrSet l) -> v <> VNone -> ~ satisfies d v.
Proof.
  intros (_ & _ & [W|W]) E NV; [|congruence]. now apply (list_types_admit_nothing d l).
Qed.

Lemma tuple_types_admit d l t v : d_values d = None -> d_types d = Some (TypesTuple l) -> d_upper d = None ->
  d_lower d = None -> d_check d = None -> In t l -> of_class supers v t -> satisfies d v.
Proof.
  intros A B C D E H I. split; [|intros f Q; congruence]. right. splits; try (intros; congruence).
  intros _ ta Q. assert (ta = TypesTuple l) as -> by congruence. exists l. eauto.
Qed.

Lemma bounds_honoured d v x : satisfies d v -> amount v (Fin x) ->
  (forall u y, d_upper d = Some u -> amount u (Fin y) -> (x <= y)%Q)
  /\ (forall l y, d_lower d = Some l -> amount l (Fin y) -> (y <= x)%Q).
Proof.
  intros [[[-> _]|(_ & _ & H1 & H2)] _] E; [inversion E|]. split.
  - intros u y Q EU. now apply (at_most_numbers v u x y E EU), H1.
  - intros u y Q EU. now apply (at_least_numbers v u x y E EU), H2.
Qed.

Lemma nan_accepted : exists d o, d_lower d = Some (VFloat (Fin 0)) /\ d_upper d = Some (VFloat (Fin 1))
    /\ orun (onew false) [ODeclare 0 d; OSet 0 (VFloat NaN)] = (o, [Ok tt; Ok tt])
    /\ getitem o 0 = Ok (VFloat NaN).
Proof.
  exists (Decl None None None (Some (VFloat (Fin 1))) (Some (VFloat (Fin 0))) None false). eexists.
  split; [reflexivity|]. split; [reflexivity|]. split; reflexivity.
Qed.

Lemma bad_default_example :
  let d := Decl (Some (VInt 11)) None (Some (TypesOne TInt)) (Some (VInt 10)) None None false in
  wellformed d /\ ~ satisfies d (VInt 11)
  /\ (let '(o, r) := declare (onew false) 0 d in r = Raise ValueError /\ getitem o 0 = Ok (VInt 11)).
Proof.
  cbv zeta. splits.
  - unfold wellformed. cbn. splits; try discriminate. now left.
  - rewrite <- assert_valid_iff. cbn. discriminate.
  - cbn. auto.
Qed.
End Proofs.
