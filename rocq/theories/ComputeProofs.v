(** C112: which components that were built deliver their value and their partials. *)
From Coq Require Import Reals Lra Lia Arith List Bool ZArith.
From Verif Require Import PyBase RSum NdArray NdEinsum Component JacSpec JacOpen CompReorder CompReduce CompProduct
  CompTensor CompRot CompElem CompExtremum CompNorm CompCond StdCalls SpecElem SpecReduce SpecNorm SpecBuild SpecCompute
  ElemProofs ArithProofs ReorderProofs ReduceProofs ProductProofs CrossProofs RotProofs ExtremumProofs NormProofs BuildProofs SpecBroadcast BroadcastProofs AcceptProofs CompEinsum SpecEinsum EinsumOrder ComputeEinsum ComputeInner.
Import ListNotations.
Local Open Scope nat_scope.

Definition assign_exists := assign_fills.
Lemma into_one t : size t = size [1] \/ stretches t [1] -> size t = 1.
Proof.
  intros [E|E]; [exact E|]. rewrite <- size_rev. rewrite (proj1 (fits_rev_nil (rev t))); [apply size_ones|].
  intros n b Hb. left. destruct (E n b Hb) as [F|F]; [assumption|]. destruct n as [|n]; [now injection F|].
  destruct n; discriminate.
Qed.
Lemma assign_shape s y z : assign_output s y = Some z -> shp z = s.
Proof.
  unfold assign_output. destruct (Nat.eqb _ _); [intros E; now inversion E|].
  destruct (Nat.eqb _ _); [intros E; now inversion E|].
  destruct (bcast _ _) as [r|]; [|discriminate]. cbv zeta. destruct (list_eq_dec _ _ _); [|discriminate].
  intros E. now inversion E.
Qed.

(** ---- powers ---- *)

Lemma defined_power c x : pow_defined x (expo_of c) = true <-> power_exists c x.
Proof.
  unfold power_exists. destruct (expo_of_cases c) as [(z & -> & ->)|[Hn ->]]; cbn [pow_defined].
  - rewrite negb_true_iff, andb_false_iff. unfold is_zero. split.
    + intros H. left. split; [now exists z|]. intros Hz Hx. apply lt_IZR in Hz.
      destruct H as [H|H]; [destruct (Req_EM_T x 0); [discriminate|contradiction]|].
      apply Z.ltb_ge in H. lia.
    + intros [[_ H]|[H _]]; [|exfalso; apply H; now exists z].
      destruct (Z.ltb_spec z 0) as [Hz|]; [|now right]. left.
      destruct (Req_EM_T x 0) as [E|]; [|reflexivity]. exfalso. apply H; [now apply IZR_lt|assumption].
  - assert (Hw : ~ whole c) by (intros [z Hz]; exact (Hn z Hz)). unfold is_zero. split.
    + intros H. right. split; [assumption|]. destruct (Rlt_dec 0 x); [now left|].
      destruct (Req_EM_T x 0); [|discriminate]. destruct (Rlt_dec 0 c); [now right|discriminate].
    + intros [[H _]|[_ H]]; [contradiction|]. destruct (Rlt_dec 0 x); [reflexivity|].
      destruct H as [H|[H H']]; [contradiction|]. destruct (Req_EM_T x 0); [|contradiction].
      now destruct (Rlt_dec 0 c).
Qed.

Lemma defined_slope c x : pow_defined x (expo_pred (expo_of c)) = true <-> slope_exists c x.
Proof.
  unfold slope_exists. destruct (expo_of_cases c) as [(z & -> & ->)|[Hn ->]]; cbn [expo_pred pow_defined].
  - rewrite negb_true_iff, andb_false_iff. unfold is_zero. split.
    + intros H. left. split; [now exists z|]. intros Hz Hx. apply lt_IZR in Hz.
      destruct H as [H|H]; [destruct (Req_EM_T x 0); [discriminate|contradiction]|].
      apply Z.ltb_ge in H. lia.
    + intros [[_ H]|[H _]]; [|exfalso; apply H; now exists z].
      destruct (Z.ltb_spec (z - 1) 0) as [Hz|]; [|now right]. left.
      destruct (Req_EM_T x 0) as [E|]; [|reflexivity]. exfalso.
      apply H; [apply IZR_lt; lia|assumption].
  - assert (Hw : ~ whole c) by (intros [z Hz]; exact (Hn z Hz)). unfold is_zero. split.
    + intros H. right. split; [assumption|]. destruct (Rlt_dec 0 x); [now left|].
      destruct (Req_EM_T x 0); [|discriminate].
      destruct (Rlt_dec 0 (c - 1)); [right; split; [assumption|lra]|discriminate].
    + intros [[H _]|[_ H]]; [contradiction|]. destruct (Rlt_dec 0 x); [reflexivity|].
      destruct H as [H|[H H']]; [contradiction|]. destruct (Req_EM_T x 0); [|contradiction].
      destruct (Rlt_dec 0 (c - 1)); [reflexivity|lra].
Qed.

Definition all_defined (x : nd R) (p : expo) : Prop :=
  forall k, k < size (shp x) -> pow_defined (dat x k) p = true.

Lemma power_defined x p : np_power x p <> None <-> all_defined x p.
Proof.
  unfold np_power, np_all, all_defined. destruct (forallb _ _) eqn:E.
  - split; [|discriminate]. intros _ k Hk. rewrite forallb_forall in E. apply E. apply in_seq. lia.
  - split; [congruence|]. intros H. exfalso. rewrite <- not_true_iff_false, forallb_forall in E. apply E.
    intros k Hk. apply in_seq in Hk. apply H. lia.
Qed.
Lemma power_shape x p y : np_power x p = Some y -> shp y = shp x.
Proof. unfold np_power. destruct (np_all _ _); [|discriminate]. intros E. now inversion E. Qed.

Lemma loop_exists s : forall l acc, shp acc = s -> Forall (fun e => shp (fst e) = s) l ->
  (exists y, power_loop acc l = Some y) <-> Forall (fun e => all_defined (fst e) (snd e)) l.
Proof.
  induction l as [|[x p] l IH]; intros acc Ha Hl; cbn [power_loop].
  - split; [constructor|]. intros _. eauto.
  - inversion Hl as [|e l' Hx Hl' E]; subst. cbn [fst snd] in *. rewrite Forall_cons_iff. cbn [fst snd]. split.
    + intros [y Hy]. destruct (_ && _); [discriminate|].
      destruct (np_power x p) as [xp|] eqn:Ep; [|discriminate].
      destruct (inplace_mul_same acc xp _ eq_refl (eq_trans (power_shape _ _ _ Ep) Hx)) as (r & E & Hs & _).
      rewrite E in Hy. split.
      * apply power_defined. congruence.
      * apply (IH r); [assumption|assumption|]. eauto.
    + intros [Hp Hr]. rewrite no_exit by exact Hp.
      destruct (np_power x p) as [xp|] eqn:Ep; [|exfalso; now apply (proj2 (power_defined x p) Hp)].
      destruct (inplace_mul_same acc xp _ eq_refl (eq_trans (power_shape _ _ _ Ep) Hx)) as (r & E & Hs & _).
      rewrite E. now apply (IH r).
Qed.

Lemma slope_loop_exists s me : forall l q d, shp d = s -> Forall (fun e => shp (fst e) = s) l ->
  (exists y, deriv_loop me q d l = Some y /\ shp y = s) <->
  forall i x p, nth_error l i = Some (x, p) -> all_defined x (if Nat.eqb me (q + i) then expo_pred p else p).
Proof.
  induction l as [|[x p] l IH]; intros q d Hd Hl; cbn [deriv_loop].
  - split; [intros _ [|i] x p H; discriminate|]. intros _. eauto.
  - inversion Hl as [|e l' Hx Hl' E]; subst. cbn [fst] in Hx.
    set (a := if Nat.eqb me q then expo_val p else 1%R). set (b := if Nat.eqb me q then expo_pred p else p).
    assert (Hstep : forall xp, np_power x b = Some xp ->
      exists r, inplace_mul d (np_map (fun t => (a * t)%R) xp) = Some r /\ shp r = shp d).
    { intros xp Ep. destruct (inplace_mul_same d (np_map (fun t => (a * t)%R) xp) _ eq_refl) as (r & E & Hs & _).
      - cbn [np_map shp]. rewrite (power_shape _ _ _ Ep). exact Hx.
      - eauto. }
    split.
    + intros (y & Hy & Hsy). destruct (np_power x b) as [xp|] eqn:Ep; [|discriminate].
      destruct (Hstep xp eq_refl) as (r & E & Hs). rewrite E in Hy. intros [|i] x' p' Hi.
      * cbn in Hi. inversion Hi; subst x' p'. rewrite Nat.add_0_r. apply power_defined. unfold b in Ep. congruence.
      * cbn [nth_error] in Hi. replace (q + S i) with (S q + i) by lia.
        apply (proj1 (IH (S q) r Hs Hl')) with (i := i); [|assumption]. eauto.
    + intros H. destruct (np_power x b) as [xp|] eqn:Ep.
      * destruct (Hstep xp eq_refl) as (r & E & Hs). rewrite E. apply (IH (S q) r Hs Hl').
        intros i x' p' Hi. specialize (H (S i) x' p' Hi). now replace (q + S i) with (S q + i) in H by lia.
      * exfalso. apply (proj2 (power_defined x b)); [|assumption].
        specialize (H 0 x p eq_refl). now rewrite Nat.add_0_r in H.
Qed.

(** ---- axes ---- *)

Lemma named_fun r : forall zs a b, Forall2 (axis_named r) zs a -> Forall2 (axis_named r) zs b -> a = b.
Proof.
  intros zs a b Ha. revert b. induction Ha as [|z x zs a Hz Ha IH]; intros b Hb; inversion Hb; subst; [reflexivity|].
  f_equal; [eapply axis_named_fun; eassumption|now apply IH].
Qed.
Lemma once_iff r zs axes : norm_axes r zs = Some axes -> (once r zs <-> NoDup axes).
Proof.
  intros E. apply norm_axes_inv in E. split.
  - intros (a & Ha & Hn). now rewrite (named_fun r zs axes a E Ha).
  - intros Hn. now exists axes.
Qed.
Lemma sum_axes_exists axes x : (exists y, sum_axes_opt axes x = Some y) <-> NoDup axes.
Proof.
  unfold sum_axes_opt. destruct (nodupb axes) eqn:E.
  - apply nodupb_NoDup in E. split; [trivial|]. eauto.
  - split; [intros [y Hy]; discriminate|]. intros H. apply nodupb_NoDup in H. congruence.
Qed.

Lemma add_all_exists (f : nd R -> option (nd R)) : (forall x, exists y, f x = Some y) ->
  forall l acc, exists y, add_all f acc l = Some y.
Proof.
  intros Hf. induction l as [|x l IH]; intros acc; cbn [add_all]; [eauto|].
  destruct (Hf x) as [y ->]. apply IH.
Qed.
Lemma loop_sum_exists f s n v : 1 <= n -> (forall x, exists y, f x = Some y) ->
  exists y, loop_sum f (inputs_of (repeat s n) v) = Some y.
Proof.
  intros Hn Hf. destruct n as [|n]; [lia|]. unfold inputs_of. cbn [repeat length seq map loop_sum].
  destruct (Hf (Nd s (v 0))) as [y Hy]. cbn [nth]. rewrite Hy. now apply add_all_exists.
Qed.
Lemma loop_sum_none f s n v : (forall x, f x = None) -> loop_sum f (inputs_of (repeat s n) v) = None.
Proof.
  intros Hf. destruct n as [|n]; [reflexivity|]. unfold inputs_of. cbn [repeat length seq map loop_sum].
  now rewrite Hf.
Qed.

Lemma last_shape_eq xs : last_shape xs = x_shape (last_of xs).
Proof. apply last_shape_of. Qed.

Lemma distinct_some xs c c' : distinct_inputs xs c = Some c' -> c = Some c'.
Proof. unfold distinct_inputs. destruct (names_ok _); congruence. Qed.
Lemma returns_some o c s c' : returns o c = Some (s, c') -> o = Some s /\ c = c'.
Proof. unfold returns. destruct o; cbn; intros E; inversion E; auto. Qed.

Lemma nth_extents s a : a < length s -> forall s' b, b < length s' ->
  (nth a s 0 = nth b s' 0 <-> nth_error s a = nth_error s' b).
Proof.
  intros Ha s' b Hb. rewrite (nth_error_nth' s 0 Ha), (nth_error_nth' s' 0 Hb). split; [now intros ->|congruence].
Qed.
Lemma extents_iff s s' : forall a b, Forall (fun x => x < length s) a -> Forall (fun x => x < length s') b ->
  (extents s a = extents s' b <-> Forall2 (fun x y => nth_error s x = nth_error s' y) a b).
Proof.
  induction a as [|x a IH]; intros [|y b] Ha Hb; cbn [extents map].
  - split; [constructor|reflexivity].
  - split; [discriminate|]. intros H; inversion H.
  - split; [discriminate|]. intros H; inversion H.
  - inversion Ha; inversion Hb; subst. split.
    + intros E. inversion E as [[E1 E2]]. constructor; [now apply nth_extents|now apply IH].
    + intros H; inversion H; subst. f_equal; [now apply nth_extents|now apply IH].
Qed.
Lemma named_bound r zs axes : Forall2 (axis_named r) zs axes -> Forall (fun x => x < r) axes.
Proof. induction 1 as [|z a zs axes [H _] _ IH]; constructor; assumption. Qed.

Lemma inner_kinds sx sy axes c : option_map snd (inner sx sy axes) = Some c ->
  (exists n n', sx = [n] /\ sy = [n']) \/
  ~ (length sx = 1 /\ length sy = 1) /\
  exists zs zs', axes = Some (zs, zs') /\ tensor_inner_comp sx sy zs zs' = Some c.
Proof.
  intros H.
  assert (Hc : (exists n n', sx = [n] /\ sy = [n']) \/ ~ (length sx = 1 /\ length sy = 1)).
  { destruct sx as [|n [|n2 l]]; destruct sy as [|n' [|n2' l']]; cbn; eauto; right; lia. }
  destruct Hc as [Hc|Hc]; [now left|]. right. split; [assumption|].
  unfold inner in H. destruct axes as [[zs zs']|].
  - exists zs, zs'. split; [reflexivity|].
    destruct sx as [|n [|n2 l]]; destruct sy as [|n' [|n2' l']];
      try (exfalso; apply Hc; now split);
      (destruct (tensor_inner_comp _ _ zs zs') as [c'|]; [|discriminate]; cbn in H; congruence).
  - exfalso. destruct sx as [|n [|n2 l]]; destruct sy as [|n' [|n2' l']]; try discriminate. apply Hc; now split.
Qed.

(** ---- values, call by call ---- *)

Lemma yes (P : Prop) : P -> (P <-> True).
Proof. tauto. Qed.

Lemma of_expr t b s c : of_outcome (Expr t (Some b)) = Some (s, Some c) -> t = s /\ b = Some c.
Proof. cbn. intros E. inversion E. auto. Qed.

Lemma linear_delivers s names coeffs k c v : linear_comp s names coeffs k = Some c ->
  (delivers c v <-> fills k s).
Proof.
  unfold linear_comp. destruct (names_ok names); [|discriminate]. intros E. inversion E; subst c; clear E.
  unfold delivers. cbn [c_ins c_compute]. rewrite <- (assign_exists s k). split.
  - intros [y Hy]. destruct (assign_output s k); [eauto|discriminate].
  - intros [z ->]. eauto.
Qed.
Lemma scalar_fills x s : fills (scalar x) s.
Proof. right. intros [|n] b Hb; discriminate. Qed.

Lemma combine_shapes s : forall (ins : list (nd R)) (ps : list expo), Forall (fun x => shp x = s) ins ->
  Forall (fun e => shp (fst e) = s) (combine ins ps).
Proof.
  induction ins as [|x ins IH]; intros [|p ps] H; cbn [combine]; try constructor; inversion H; subst; auto.
Qed.
Lemma repeat_shapes s n v : Forall (fun x => shp x = s) (inputs_of (repeat s n) v).
Proof. apply Forall_forall. intros x Hx. apply inputs_repeat_In in Hx as (p & _ & ->). reflexivity. Qed.

Lemma power_delivers s names powers k c v : power_comp s names powers k = Some c ->
  (delivers c v <-> fills (coeff_nd k) s /\
     Forall (fun e => all_defined (fst e) (snd e)) (combine (inputs_of (repeat s (length names)) v) powers)).
Proof.
  unfold power_comp. destruct (names_ok names); [|discriminate]. intros E. inversion E; subst c; clear E.
  unfold delivers. cbn [c_ins c_compute]. unfold power_compute. unfold fills. rewrite <- (assign_exists s (coeff_nd k)).
  split.
  - intros [y Hy]. destruct (assign_output s (coeff_nd k)) as [z|] eqn:E; [|discriminate]. split; [eauto|].
    apply (loop_exists s _ z (assign_shape _ _ _ E)); [apply combine_shapes, repeat_shapes|]. eauto.
  - intros [[z E] H]. rewrite E. apply (loop_exists s _ z (assign_shape _ _ _ E)); [apply combine_shapes, repeat_shapes|].
    exact H.
Qed.

Lemma one_defined x : all_defined x (EInt 1).
Proof. intros k _. cbn. now rewrite andb_false_r. Qed.
Lemma inverse_defined s x : all_defined (Nd s x) (EInt (-1)) <-> all_of s (fun t => t <> 0%R) x.
Proof.
  unfold all_defined, all_of. cbn [shp dat pow_defined]. unfold is_zero. split; intros H k Hk; specialize (H k Hk).
  - destruct (Req_EM_T (x k) 0); [discriminate|assumption].
  - destruct (Req_EM_T (x k) 0); [contradiction|reflexivity].
Qed.
Lemma expo_defined s c x : all_defined (Nd s x) (expo_of c) <-> all_of s (power_exists c) x.
Proof.
  unfold all_defined, all_of. cbn [shp dat]. split; intros H k Hk; apply defined_power; now apply H.
Qed.

Lemma binop_delivers op a b s c v : evaluated (KBinop op a b) -> of_outcome (py_binop op a b) = Some (s, Some c) ->
  (delivers c v <-> value_exists (KBinop op a b) v).
Proof.
  intros He H. unfold py_binop in H.
  destruct a as [n t|x|a|]; [|destruct b as [m t|y|b|]; try discriminate| |discriminate].
  - destruct b as [m u|y|b|].
    + destruct op; cbn [elementwise] in H; unfold addition, subtraction, multiplication, division, power in H;
        try (destruct (list_eq_dec Nat.eq_dec t u); [|discriminate]; apply of_expr in H as [<- H]);
        try (cbn in H; congruence); cbn [value_exists].
      * rewrite (linear_delivers _ _ _ _ _ v H). apply yes, scalar_fills.
      * rewrite (linear_delivers _ _ _ _ _ v H). apply yes, scalar_fills.
      * rewrite (power_delivers _ _ _ _ _ v H). apply yes. split; [apply scalar_fills|].
        cbn [length]. rewrite inputs2. cbn [combine]. repeat constructor; apply one_defined.
      * rewrite (power_delivers _ _ _ _ _ v H). cbn [length]. rewrite inputs2. cbn [combine].
        rewrite !Forall_cons_iff. cbn [fst snd]. rewrite inverse_defined. split; [tauto|].
        intros E. split; [apply scalar_fills|]. split; [apply one_defined|]. split; [assumption|constructor].
    + destruct op; cbn [elementwise] in H; unfold addition, subtraction, multiplication, division, power in H;
        try (destruct (Req_EM_T y 0); [discriminate|]); apply of_expr in H as [<- H]; cbn [value_exists].
      * rewrite (linear_delivers _ _ _ _ _ v H). apply yes, scalar_fills.
      * rewrite (linear_delivers _ _ _ _ _ v H). apply yes, scalar_fills.
      * rewrite (power_delivers _ _ _ _ _ v H). apply yes. split; [apply scalar_fills|].
        cbn [length]. rewrite inputs1. repeat constructor. apply one_defined.
      * rewrite (power_delivers _ _ _ _ _ v H). apply yes. split; [apply scalar_fills|].
        cbn [length]. rewrite inputs1. repeat constructor. apply one_defined.
      * rewrite (power_delivers _ _ _ _ _ v H). cbn [length]. rewrite inputs1. cbn [combine].
        rewrite Forall_cons_iff. cbn [fst snd]. rewrite expo_defined. split; [tauto|].
        intros E. split; [apply scalar_fills|]. split; [assumption|constructor].
    + destruct op; cbn [elementwise] in H; unfold addition, subtraction, multiplication, division, power in H.
      * apply of_expr in H as [<- H]. cbn [value_exists]. apply (linear_delivers _ _ _ _ _ v H).
      * apply of_expr in H as [<- H]. cbn [value_exists]. apply (linear_delivers _ _ _ _ _ v H).
      * apply of_expr in H as [<- H]. cbn [value_exists]. rewrite (power_delivers _ _ _ _ _ v H).
        cbn [length coeff_nd]. rewrite inputs1. split; [tauto|]. intros E. split; [assumption|].
        repeat constructor. apply one_defined.
      * destruct (Nat.eqb (size (shp b)) 1); [|discriminate]. destruct (Req_EM_T (dat b 0) 0); [discriminate|].
        apply of_expr in H as [<- H]. cbn [value_exists]. rewrite (power_delivers _ _ _ _ _ v H).
        cbn [length coeff_nd]. rewrite inputs1. unfold fills. cbn [np_map shp]. split; [tauto|]. intros E.
        split; [assumption|]. repeat constructor. apply one_defined.
      * destruct (list_eq_dec Nat.eq_dec t (shp b)) as [E|]; [|discriminate].
        apply of_expr in H as [<- H]. destruct (Nat.eqb_spec (length t) 1) as [L|]; [|discriminate].
        cbn [value_exists]. rewrite (power_delivers _ _ _ _ _ v H). cbn [length]. rewrite inputs1.
        unfold np_list. rewrite <- E. destruct (size t) as [|k] eqn:Ek.
        -- cbn [seq map combine]. split.
           ++ intros _ i Hi. lia.
           ++ intros _. split; [apply scalar_fills|constructor].
        -- cbn [seq map combine].
           rewrite Forall_cons_iff. cbn [fst snd]. rewrite expo_defined. split; [tauto|].
           intros F. split; [apply scalar_fills|]. split; [assumption|constructor].
    + destruct op; cbn in H; congruence.
  - destruct op; cbn [elementwise] in H; unfold addition, subtraction, multiplication, division, power in H;
      try discriminate; apply of_expr in H as [<- H]; cbn [value_exists].
    + rewrite (linear_delivers _ _ _ _ _ v H). apply yes, scalar_fills.
    + rewrite (linear_delivers _ _ _ _ _ v H). apply yes, scalar_fills.
    + rewrite (power_delivers _ _ _ _ _ v H). apply yes. split; [apply scalar_fills|].
      cbn [length]. rewrite inputs1. repeat constructor. apply one_defined.
    + rewrite (power_delivers _ _ _ _ _ v H). cbn [length]. rewrite inputs1. cbn [combine].
      rewrite Forall_cons_iff. cbn [fst snd]. rewrite inverse_defined. split; [tauto|].
      intros E. split; [apply scalar_fills|]. split; [assumption|constructor].
  - destruct b as [m u|y|b|]; try discriminate. destruct op; discriminate.
Qed.

Lemma norm_order x p axis s c : pnorm x p axis = Some (s, c) -> exists m, 1 <= m /\ p = order m.
Proof.
  unfold pnorm. intros H. destruct axis; try discriminate;
  (destruct (negb (Z.eqb (p mod 2) 0) || Z.leb p 0) eqn:E; [discriminate|];
   apply orb_false_iff in E as [E1 E2]; apply negb_false_iff, Z.eqb_eq in E1; apply Z.leb_gt in E2;
   exists (Z.to_nat (p / 2)); unfold order; pose proof (Z.div_mod p 2); split;
   [enough (1 <= p / 2)%Z by lia|]; lia).
Qed.

Lemma letters_len i j : length (letters26 i j) = Nat.min j 26 - Nat.min i 26.
Proof. apply seq_length. Qed.

Lemma axis_run_none neg rho a s x : nth a s 0 = 0 -> axis_run neg rho a (Nd s x) = None.
Proof.
  intros H. unfold axis_run, np_max_axis. rewrite neg_if_shp. cbn [shp]. now rewrite H.
Qed.
Lemma axis_run_some neg rho a s x : nth a s 0 <> 0 ->
  exists y kept, axis_run neg rho a (Nd s x) = Some (y, kept) /\ shp y = delete [a] s.
Proof.
  intros H. unfold axis_run, np_max_axis. rewrite neg_if_shp. cbn [shp].
  destruct (Nat.eqb_spec (nth a s 0) 0); [contradiction|]. eexists. eexists. split; [reflexivity|].
  now rewrite neg_if_shp.
Qed.

Lemma nonzero_extent s a : a < length s -> (nth a s 0 <> 0 <-> nth_error s a <> Some 0).
Proof. intros H. rewrite (nth_error_nth' s 0 H). split; congruence. Qed.

Theorem which_deliver k s c v : evaluated k -> std k = Some (s, Some c) -> (delivers c v <-> value_exists k v).
Proof.
  intros He H. destruct k; cbn [std] in H.
  - (* elementary *)
    cbn [std_elem of_outcome] in H. inversion H; subst; clear H. cbn [value_exists]. apply yes.
    unfold delivers. cbn [elem_comp c_ins c_compute]. cbn [inputs_of length seq map nth].
    apply assign_exists. left. exact (proj1 (elem_value_dat e (Nd (x_shape x) (v 0)) 0)).
  - now apply binop_delivers with (s := s).
  - unfold py_neg, multiplication in H. destruct a; try discriminate. apply of_expr in H as [<- H].
    cbn [value_exists]. rewrite (power_delivers _ _ _ _ _ v H). apply yes. split; [apply scalar_fills|].
    cbn [length]. rewrite inputs1. repeat constructor. apply one_defined.
  - (* sum *)
    apply returns_some in H as [_ H]. apply distinct_some in H. rewrite last_shape_eq in H.
    set (t := x_shape (last_of xs)) in *. unfold sum_comp in H.
    destruct (length xs) as [|n]; [discriminate|]. destruct axes as [zs|].
    + assert (E : exists axes, norm_axes (length t) zs = Some axes /\
        c = comp_n t (S n) (delete axes t) (loop_sum (sum_axes_opt axes)) (as_sparse (axis_partials t axes 1%R))).
      { destruct n; (destruct (norm_axes (length t) zs) as [axes|]; [|discriminate]);
          (destruct (axis_left t axes); [|discriminate]); inversion H; eauto. }
      destruct E as (axes & Ea & ->). cbn [value_exists]. fold t. rewrite (once_iff _ _ _ Ea).
      unfold delivers. cbn [comp_n c_ins c_compute]. split.
      * intros [y Hy]. destruct (nodupb axes) eqn:En; [now apply nodupb_NoDup|].
        rewrite loop_sum_none in Hy; [discriminate|]. intros x. unfold sum_axes_opt. now rewrite En.
      * intros Hn. apply loop_sum_exists; [lia|]. intros x. now apply sum_axes_exists.
    + cbn [value_exists]. apply yes. unfold delivers. destruct n; inversion H; subst; clear H; cbn [comp_n c_ins c_compute].
      * cbn [repeat inputs_of length seq map nth]. eauto.
      * apply loop_sum_exists; [lia|]. eauto.
  - (* average *)
    apply returns_some in H as [_ H]. apply distinct_some in H. rewrite last_shape_eq in H.
    set (t := x_shape (last_of xs)) in *. unfold average_comp in H. cbn [value_exists]. apply yes. unfold delivers.
    destruct (length xs) as [|n]; [discriminate|]. destruct axes as [zs|].
    + assert (E : exists axes m, entries_averaged t axes = Some m /\ c =
         comp_n t (S n) (delete axes t)
           (fun ins => if Nat.eqb (S n) 1 then match ins with [x] => average_axes_opt axes x | _ => None end
                       else divide_by (S n) (loop_sum (average_axes_opt axes) ins))
           (as_sparse (axis_partials t axes (if Nat.eqb (S n) 1 then 1 / INR m else 1 / (INR m * INR (S n)))%R))).
      { destruct n; (destruct (norm_axes (length t) zs) as [axes|]; [|discriminate]);
          (destruct (entries_averaged t axes) as [m|] eqn:Em; [|discriminate]);
          (destruct (axis_left t axes); [|discriminate]); inversion H; eauto. }
      destruct E as (axes & m & Em & ->). cbn [comp_n c_ins c_compute].
      assert (Hn : nodupb axes = true) by (destruct axes as [|a [|b l]]; [reflexivity|reflexivity|discriminate]).
      destruct (Nat.eqb_spec (S n) 1) as [E1|E1].
      * rewrite E1. cbn [repeat inputs_of length seq map nth]. unfold average_axes_opt. rewrite Hn. eauto.
      * destruct (loop_sum_exists (average_axes_opt axes) t (S n) v) as [y Hy]; [lia| |].
        { intros x. unfold average_axes_opt. rewrite Hn. eauto. }
        rewrite Hy. cbn [divide_by option_map]. eauto.
    + destruct n; inversion H; subst; clear H; cbn [comp_n c_ins c_compute].
      * cbn [repeat inputs_of length seq map nth]. eauto.
      * destruct (loop_sum_exists (fun x => Some x) t (S (S n)) v) as [y Hy]; [lia|eauto|].
        rewrite Hy. cbn [divide_by option_map]. eauto.
  - (* extremum *)
    unfold extremum in H. destruct xs as [|x [|x' xs]]; [destruct axis; discriminate| |].
    + cbn [map name_shape] in H. destruct axis as [z|].
      * destruct (norm_axis (length (x_shape x)) z) as [a|] eqn:Ea; [|discriminate]. apply norm_axis_some in Ea.
        unfold axis_ext in H. destruct (Nat.leb _ 12); [|discriminate]. inversion H; subst; clear H.
        cbn [value_exists]. unfold delivers. cbn [c_ins c_compute inputs_of length seq map nth].
        pose proof (nonzero_extent (x_shape x) a (proj1 Ea)) as Hz. split.
        -- intros [y Hy] b Hb. rewrite <- (axis_named_fun _ _ _ _ Ea Hb). apply Hz. intros C.
           rewrite (axis_run_none neg rho a _ (v 0) C) in Hy. discriminate.
        -- intros F. specialize (F a Ea). apply Hz in F.
           destruct (axis_run_some neg rho a (x_shape x) (v 0) F) as (y & kept & -> & Hs).
           apply assign_exists. left. now rewrite Hs.
      * inversion H; subst; clear H. cbn [value_exists]. unfold delivers, scalar_ext.
        cbn [c_ins c_compute inputs_of length seq map nth]. unfold scalar_run, np_max_all.
        replace (shp (if neg then np_map (fun t => (-1 * t)%R) (Nd (x_shape x) (v 0)) else Nd (x_shape x) (v 0)))
          with (x_shape x) by (destruct neg; reflexivity).
        destruct (Nat.eqb_spec (size (x_shape x)) 0) as [E|E].
        -- split; [intros [y Hy]; discriminate|contradiction].
        -- split; [trivial|]. intros _. apply assign_exists. now left.
    + cbn [map name_shape] in H. destruct axis as [z|]; [discriminate|].
      destruct (all_shapes _ _); [|discriminate]. unfold elementwise_ext in H.
      destruct (names_ok _); [|discriminate]. inversion H; subst; clear H. cbn [value_exists]. apply yes.
      unfold delivers. cbn [c_ins c_compute]. apply assign_exists. left. rewrite neg_if_shp. cbn [np_map2 shp].
      apply (f_equal size). apply (fmax_shp neg (x_shape x) (S (S (length (map fst (map name_shape xs)))))). lia.
  - (* norm *)
    destruct (norm_order _ _ _ _ _ H) as (m & Hm & ->). unfold pnorm in H. destruct axis as [|zs|]; [| |discriminate].
    + destruct (_ || _); [discriminate|]. inversion H; subst; clear H. cbn [value_exists]. apply yes.
      unfold delivers. cbn [norm_comp c_ins c_compute inputs_of length seq map nth]. apply assign_exists. now left.
    + destruct (_ || _); [discriminate|].
      destruct (norm_axes (length (x_shape x)) zs) as [axes|] eqn:Ea; [|discriminate].
      destruct (_ && _); [|discriminate]. inversion H; subst; clear H. cbn [value_exists].
      rewrite (once_iff _ _ _ Ea). unfold delivers. cbn [axis_norm_comp c_ins c_compute inputs_of length seq map nth]. split.
      * intros [y Hy]. unfold axis_norm_run in Hy. destruct (np_power _ _) as [xp|]; [|discriminate].
        apply (sum_axes_exists axes xp). destruct (sum_axes_opt axes xp); [eauto|discriminate].
      * intros Hn. destruct (axis_norm_run_spec m (x_shape x) axes (v 0) Hm Hn) as (y & -> & Hs & _).
        apply assign_exists. left. now rewrite Hs.
  - (* inner *)
    apply returns_some in H as [_ H]. apply distinct_some in H.
    destruct (inner_kinds _ _ _ _ H) as [(n & n' & Ex & Ey)|(Hc & E)].
    + rewrite Ex, Ey in H. cbn in H. inversion H; subst; clear H.
      assert (E : value_exists (KInner x y axes) v) by (cbn; destruct axes as [[zs zs']|]; [|trivial]; left; rewrite Ex, Ey; auto).
      split; [intros _; exact E|]. intros _. unfold delivers. cbn [vector_inner_comp comp2 c_ins c_compute inputs_of length seq map nth].
      apply assign_exists. now left.
    + destruct E as (zs & zs' & -> & E). unfold tensor_inner_comp in E.
      destruct (norm_axes (length (x_shape x)) zs) as [a0|] eqn:E0; [|discriminate].
      destruct (norm_axes (length (x_shape y)) zs') as [a1|] eqn:E1; [|discriminate].
      inversion E; subst c; clear E H. cbn [value_exists].
      rewrite (once_iff _ _ _ E0), (once_iff _ _ _ E1).
      unfold delivers. cbn [comp2 c_ins c_compute inputs_of length seq map nth]. unfold np_tensordot. cbn [shp].
      rewrite E0, E1. apply norm_axes_inv in E0, E1.
      pose proof (extents_iff (x_shape x) (x_shape y) a0 a1 (named_bound _ _ _ E0) (named_bound _ _ _ E1)) as Hx.
      split.
      * intros [z Hz]. right.
        destruct (nodupb a0) eqn:N0; [|discriminate]. destruct (nodupb a1) eqn:N1; [|discriminate].
        destruct (list_eq_dec Nat.eq_dec _ _) as [X|]; [|discriminate].
        splits; [now apply nodupb_NoDup|now apply nodupb_NoDup|]. exists a0, a1. splits; auto. now apply Hx.
      * intros [C|(N0 & N1 & b0 & b1 & B0 & B1 & B)]; [contradiction|].
        rewrite (named_fun _ _ _ _ B0 E0), (named_fun _ _ _ _ B1 E1) in B.
        apply nodupb_NoDup in N0. apply nodupb_NoDup in N1. rewrite N0, N1.
        destruct (list_eq_dec Nat.eq_dec _ _) as [X|X]; [|exfalso; apply X; now apply Hx].
        cbn [andb]. apply assign_exists. now left.
  - (* dot *)
    apply returns_some in H as [_ H]. apply distinct_some in H. cbn [value_exists]. apply yes. unfold dot_comp in H.
    destruct (list_eq_dec Nat.eq_dec _ _) as [E|]; [|discriminate]. unfold delivers.
    assert (Hc : (exists n, c = vector_inner_comp n) \/ exists a, c = comp2 (x_shape x) (x_shape y) (delete [a] (x_shape x))
       (fun x y => Some (np_sum_axes (np_map2 Rmult x y) [a]))
       (fun _ b => as_sparse (sparse_partials (axis_rows (x_shape x) [a]) (np_arange (size (x_shape x))) (np_flatten b)))
       (fun b _ => as_sparse (sparse_partials (axis_rows (x_shape x) [a]) (np_arange (size (x_shape x))) (np_flatten b)))).
    { destruct (x_shape x) as [|n [|n2 l]] eqn:Ex; [|left; exists n; congruence|];
        (destruct axis as [z|]; [|discriminate]; destruct (norm_axis _ z) as [a|]; [|discriminate];
         destruct (Nat.eqb _ 3); [|discriminate]; right; exists a; congruence). }
    destruct Hc as [[n ->]|[a ->]].
    + cbn [vector_inner_comp comp2 c_ins c_compute inputs_of length seq map nth]. apply assign_exists. now left.
    + cbn [comp2 c_ins c_compute inputs_of length seq map nth]. eauto.
  - (* outer *)
    apply returns_some in H as [_ H]. apply distinct_some in H. inversion H; subst c; clear H. cbn [value_exists].
    unfold delivers, outer_comp.
    assert (Hc : (exists n n', x_shape x = [n] /\ x_shape y = [n']) \/
      forall A (f : nat -> nat -> A) g, match x_shape x, x_shape y with [n0], [n1] => f n0 n1 | _, _ => g end = g).
    { destruct (x_shape x) as [|n [|n2 l]]; destruct (x_shape y) as [|n' [|n2' l']]; eauto. }
    destruct Hc as [(n & n' & -> & ->)|Hc].
    + cbn [comp2 c_ins c_compute inputs_of length seq map nth]. split; [cbn; lia|]. eauto.
    + rewrite Hc. cbn [comp2 c_ins c_compute inputs_of length seq map nth]. rewrite !letters_len.
      destruct (Nat.eqb_spec (Nat.min (length (x_shape x)) 26 - Nat.min 0 26) (length (x_shape x))) as [E|E];
      destruct (Nat.eqb_spec (Nat.min (length (x_shape x) + length (x_shape y)) 26 - Nat.min (length (x_shape x)) 26)
                  (length (x_shape y))) as [F|F]; cbn [andb].
      * split; [lia|]. eauto.
      * split; [intros [z Hz]; discriminate|lia].
      * split; [intros [z Hz]; discriminate|lia].
      * split; [intros [z Hz]; discriminate|lia].
  - (* matvec *)
    cbn [value_exists]. apply yes. unfold matvec_comp in H.
    destruct (x_shape x) as [|m [|n [|? ?]]]; try discriminate. destruct (x_shape y) as [|n' [|? ?]]; try discriminate.
    destruct (Nat.eqb n n'); [|discriminate]. injection H as <- H. apply distinct_some in H. inversion H; subst c; clear H.
    unfold delivers. cbn [comp2 c_ins c_compute inputs_of length seq map nth]. apply assign_exists. now left.
  - (* matmat *)
    cbn [value_exists]. apply yes. unfold matmat_comp in H.
    assert (Hc : exists m n p, c = matmat_core m n p).
    { destruct (x_shape x) as [|m [|n [|? ?]]]; try discriminate. destruct (x_shape y) as [|n' [|p [|? ?]]]; try discriminate;
        (destruct (Nat.eqb n n'); [|discriminate]; injection H as <- H; apply distinct_some in H;
         destruct (reshape_val_ok y); [|discriminate]; inversion H; eauto). }
    destruct Hc as (m & n & p & ->). unfold delivers, matmat_core.
    cbn [comp2 c_ins c_compute inputs_of length seq map nth]. apply assign_exists. left.
    unfold matmat_out_shape. cbn [np_matmat of_fun shp]. destruct (Nat.eqb_spec p 1) as [->|]; cbn; lia.
  - (* cross *)
    apply returns_some in H as [_ H]. apply distinct_some in H. cbn [value_exists]. apply yes. unfold cross_comp in H.
    destruct (list_eq_dec Nat.eq_dec _ _); [|discriminate].
    destruct (nth_error (x_shape x) axis) as [[|[|[|[|?]]]]|]; try discriminate.
    destruct (Nat.leb _ 10); [|discriminate]. inversion H; subst c; clear H.
    unfold delivers. cbn [comp2 c_ins c_compute inputs_of length seq map nth]. eauto.
  - (* rotation *)
    inversion H; subst; clear H. cbn [value_exists]. unfold delivers, rot_comp.
    cbn [comp1 c_ins c_compute inputs_of length seq map nth]. split.
    + intros [y Hy]. destruct (rot_positions axis) as [t|] eqn:E; [|discriminate]. unfold rot_positions in E.
      destruct (Nat.eq_dec axis 120); [auto|]. destruct (Nat.eq_dec axis 121); [auto|]. destruct (Nat.eq_dec axis 122); [auto|].
      exfalso. do 123 (destruct axis as [|axis]; [congruence|]). discriminate.
    + intros Ha. assert (E : exists t, rot_positions axis = Some t) by (destruct Ha as [->|[->| ->]]; cbn; eauto).
      destruct E as [t ->]. apply assign_exists. left. cbn [per_angle of_fun shp]. unfold rot_out_shape.
      destruct (list_eq_dec Nat.eq_dec (x_shape x) [1]) as [->|]; reflexivity.
  - (* reshape *)
    inversion H; subst; clear H. cbn [value_exists]. unfold delivers, reshape_comp, reshape_compute.
    cbn [comp1 c_ins c_compute inputs_of length seq map nth shp]. unfold reshape_std.
    match goal with |- context [Nat.eqb ?a ?b] => destruct (Nat.eqb_spec a b) as [E|E] end.
    + split; [trivial|]. eauto.
    + split; [intros [y Hy]; discriminate|contradiction].
  - inversion H; subst; clear H. cbn [value_exists]. apply yes. unfold delivers. cbn [transpose_comp comp1 c_ins c_compute inputs_of length seq map nth]. eauto.
  - (* reorder *)
    apply returns_some in H as [_ H]. cbn [value_exists]. apply yes. unfold reorder_comp in H.
    destruct (reorder_out_shape _ _); [|discriminate]. unfold reorder_partials in H.
    destruct (new_axes op) as [p|] eqn:En; [|discriminate]. destruct (axes_ok (length (x_shape x)) p) eqn:Eo; [|discriminate].
    destruct (sparse_partials _ _ _); [|discriminate]. inversion H; subst c; clear H.
    unfold delivers, reorder_compute. cbn [comp1 c_ins c_compute inputs_of length seq map nth shp]. rewrite En, Eo. eauto.
  - (* expand *)
    destruct (expand_std _ _ _) eqn:E in H; [|discriminate]. injection H as <- H. cbn [value_exists]. apply yes.
    unfold expand_comp in H. rewrite E in H. inversion H; subst c; clear H. unfold delivers.
    cbn [comp1 c_ins c_compute inputs_of length seq map nth shp]. eauto.
  - (* einsum *)
    destruct He as (SN & _ & subs & out & P). apply returns_some in H as [_ H]. cbn [value_exists].
    rewrite (einsum_delivers _ _ _ _ _ _ v SN P H). split.
    + intros F subs' out' P'. rewrite P in P'. now injection P' as <- <-.
    + intros F. now apply F.
  - destruct He as (SN & _ & X & T). apply returns_some in H as [ES H]. cbn [value_exists].
    now apply (tuples_deliver sparse _ _ s).
  - (* if_else *)
    unfold if_else in H. destruct (list_eq_dec Nat.eq_dec _ _); [|discriminate]. injection H as <- H.
    unfold cond_comp in H. destruct (_ && _); [|discriminate]. inversion H; subst; clear H. cbn [value_exists].
    unfold delivers. cbn [c_ins c_compute inputs_of length seq map nth]. unfold truth_neg, negative. cbn [shp dat].
    destruct (Nat.eqb_spec (size (x_val c0)) 1) as [E|E].
    + destruct (Rlt_dec (v 0 0) 0) as [L|L].
      * rewrite assign_exists. cbn [shp]. split; [intros Hs; apply into_one in Hs; splits; [assumption|intros _; assumption|contradiction]|].
        intros (_ & Hs & _). left. rewrite (Hs L). reflexivity.
      * rewrite assign_exists. cbn [shp]. split; [intros Hs; apply into_one in Hs; splits; [assumption|contradiction|intros _; assumption]|].
        intros (_ & _ & Hs). left. rewrite (Hs L). reflexivity.
    + split; [intros [y Hy]; discriminate|]. intros [C _]; contradiction.
Qed.

(** ---- partials, call by call ---- *)

Lemma diag_exists n d : (exists j, as_sparse (sparse_partials (np_arange n) (np_arange n) d) = Some j) <->
  shp d = [n] \/ shp d = [].
Proof.
  unfold sparse_partials. cbn [np_arange shp]. replace (size [n]) with n by (cbn; lia).
  destruct (list_eq_dec Nat.eq_dec [n] [n]) as [_|C]; [|congruence].
  destruct (list_eq_dec Nat.eq_dec (shp d) [n]) as [E|E].
  - split; [auto|]. cbn. eauto.
  - destruct (list_eq_dec Nat.eq_dec (shp d) []) as [F|F].
    + split; [auto|]. cbn. eauto.
    + split; [intros [j Hj]; discriminate|]. intros [C|C]; contradiction.
Qed.

Lemma vec_exists n r c v : shp r = [n] -> shp c = [n] -> shp v = [n] -> exists j, as_sparse (sparse_partials r c v) = Some j.
Proof. intros Hr Hc Hv. rewrite (sparse_partials_vec n) by assumption. cbn. eauto. Qed.

Lemma correct_differentiates c m v : correct c m -> differentiates c v.
Proof. intros (F & _ & H) p Hp. destruct (H v p I Hp) as (j & Hj & _). eauto. Qed.
Lemma within_differentiates dom c m v : correct_within dom c m -> dom v -> differentiates c v.
Proof. intros (_ & F & _ & H) Hd p Hp. destruct (H v p Hd Hp) as (j & Hj & _). eauto. Qed.

Lemma linear_differentiates s names coeffs k c v : length coeffs = length names ->
  linear_comp s names coeffs k = Some c -> differentiates c v.
Proof.
  intros Hl. unfold linear_comp. destruct (names_ok names); [|discriminate]. intros E. inversion E; subst c; clear E.
  intros p Hp. cbn [c_ins c_partials] in *. rewrite repeat_length in Hp.
  destruct (nth_error coeffs p) as [x|] eqn:En; [|apply nth_error_None in En; lia].
  apply diag_exists. now right.
Qed.

Lemma power_differentiates s names powers k c v : power_comp s names powers (CNum k) = Some c ->
  (differentiates c v <-> forall p i x e, p < length names ->
     nth_error (combine (inputs_of (repeat s (length names)) v) powers) i = Some (x, e) ->
     all_defined x (if Nat.eqb p i then expo_pred e else e)).
Proof.
  unfold power_comp. destruct (names_ok names); [|discriminate]. intros E. inversion E; subst c; clear E.
  unfold differentiates. cbn [c_ins c_partials]. rewrite repeat_length. unfold power_partials. cbn [coeff_after coeff_nd].
  destruct (np_bcast2_scalar Rmult k (Nd s (fun _ => 1%R))) as (d & -> & Hs & _). cbn [shp] in Hs.
  assert (Hl := combine_shapes s (inputs_of (repeat s (length names)) v) powers (repeat_shapes s (length names) v)).
  assert (Hstep : forall p, (exists j, match deriv_loop p 0 d (combine (inputs_of (repeat s (length names)) v) powers) with
      | Some d' => as_sparse (sparse_partials (np_arange (size s)) (np_arange (size s)) (np_flatten d'))
      | None => None end = Some j) <->
    (exists y, deriv_loop p 0 d (combine (inputs_of (repeat s (length names)) v) powers) = Some y /\ shp y = s)).
  { intros p. split.
    - intros [j Hj]. destruct (deriv_loop p 0 d _) as [y|] eqn:E; [|discriminate]. exists y. split; [reflexivity|].
      clear Hj. revert E. revert Hs Hl. generalize 0 as q. generalize (combine (inputs_of (repeat s (length names)) v) powers) as l.
      intros l. revert d. induction l as [|[x e] l IH]; intros d q Hs Hl; cbn [deriv_loop].
      + intros E. inversion E; now subst.
      + inversion Hl as [|e' l' Hx Hl' E']; subst. destruct (np_power x _) as [xp|] eqn:Ep; [|discriminate].
        destruct (inplace_mul _ _) as [r|] eqn:Er; [|discriminate]. intros E. refine (IH r (S q) _ Hl' E).
        unfold inplace_mul in Er. destruct (np_bcast2 _ _ _) as [r'|]; [|discriminate].
        destruct (list_eq_dec Nat.eq_dec (shp r') (shp d)); [|discriminate]. congruence.
    - intros (y & -> & Hy). apply diag_exists. left. cbn [np_flatten shp]. now rewrite Hy. }
  split.
  - intros H p i x e Hp Hi. specialize (H p Hp). apply Hstep in H.
    pose proof (proj1 (slope_loop_exists s p _ 0 d Hs Hl) H) as Hd. now apply (Hd i).
  - intros H p Hp. apply Hstep. apply (slope_loop_exists s p _ 0 d Hs Hl). intros i x e Hi. now apply (H p i).
Qed.

Lemma zero_defined x : all_defined x (EInt 0).
Proof. intros k _. cbn. now rewrite andb_false_r. Qed.
Lemma square_defined s x : all_defined (Nd s x) (EInt (-2)) <-> all_of s (fun t => t <> 0%R) x.
Proof.
  unfold all_defined, all_of. cbn [shp dat pow_defined]. unfold is_zero. split; intros H k Hk; specialize (H k Hk).
  - destruct (Req_EM_T (x k) 0); [discriminate|assumption].
  - destruct (Req_EM_T (x k) 0); [contradiction|reflexivity].
Qed.
Lemma pred_defined s c x : all_defined (Nd s x) (expo_pred (expo_of c)) <-> all_of s (slope_exists c) x.
Proof.
  unfold all_defined, all_of. cbn [shp dat]. split; intros H k Hk; apply defined_slope; now apply H.
Qed.

(** one operand *)
Lemma power1_differentiates s n e ps k c v : power_comp s [n] (e :: ps) (CNum k) = Some c ->
  (differentiates c v <-> all_defined (Nd s (v 0)) (expo_pred e)).
Proof.
  intros H. rewrite (power_differentiates _ _ _ _ _ v H). cbn [length]. rewrite inputs1. cbn [combine]. split.
  - intros F. exact (F 0 0 _ _ Nat.lt_0_1 eq_refl).
  - intros F p [|i] x e' Hp Hi; [|destruct i; discriminate]. inversion Hi; subst. now replace p with 0 by lia.
Qed.

(** a constant array as factor *)
Lemma bcast_rev_small : forall t s, bcast_rev t s = Some t -> 0 < size t -> size s <= size t.
Proof.
  induction t as [|a t IH]; intros s E Hp.
  - cbn in E. inversion E; subst. lia.
  - destruct s as [|b s]; [cbn in *; lia|]. cbn [bcast_rev] in E.
    destruct (bcast_rev t s) as [r|] eqn:Er; [|discriminate]. cbn [size fold_right] in *.
    assert (Hr : r = t /\ (a = b \/ b = 1)).
    { destruct (Nat.eqb_spec a b); [inversion E; auto|]. destruct (Nat.eqb_spec a 1); [inversion E; subst; auto|].
      destruct (Nat.eqb_spec b 1); [inversion E; auto|discriminate]. }
    destruct Hr as [-> Hb]. specialize (IH s Er). fold (size t) in *. fold (size s) in *.
    assert (Ht : 0 < size t) by (destruct (size t); lia). specialize (IH Ht).
    destruct Hb as [->| ->]; [now apply Nat.mul_le_mono_l|]. assert (0 < a) by nia. nia.
Qed.
Lemma bcast_rev_padded : forall t s, bcast_rev t s = Some t -> size t = size s -> 0 < size s ->
  exists k, t = s ++ repeat 1 k.
Proof.
  induction t as [|a t IH]; intros s E Hs Hp.
  - cbn in E. inversion E; subst. now exists 0.
  - destruct s as [|b s].
    + exists (length (a :: t)). cbn [app]. clear -Hs. revert Hs. generalize (a :: t) as l.
      induction l as [|x l IH]; intros H; [reflexivity|]. cbn [size fold_right] in H. fold (size l) in H.
      cbn [length repeat]. assert (x = 1 /\ size l = 1) as [-> Hl] by (apply Nat.eq_mul_1 in H; lia).
      f_equal. apply IH. exact Hl.
    + cbn [bcast_rev] in E. destruct (bcast_rev t s) as [r|] eqn:Er; [|discriminate].
      cbn [size fold_right] in *. fold (size t) in *. fold (size s) in *.
      assert (Hr : r = t /\ (a = b \/ b = 1)).
      { destruct (Nat.eqb_spec a b); [inversion E; auto|]. destruct (Nat.eqb_spec a 1); [inversion E; subst; auto|].
        destruct (Nat.eqb_spec b 1); [inversion E; auto|discriminate]. }
      destruct Hr as [-> Hb]. assert (Ht : 0 < size t) by nia.
      pose proof (bcast_rev_small t s Er Ht) as Hle.
      assert (a = b /\ size t = size s) as [-> Hss].
      { destruct Hb as [->| ->].
        - split; [reflexivity|]. apply (Nat.mul_cancel_l _ _ b); [intros ->; cbn in Hp; lia|exact Hs].
        - destruct a as [|[|a]]; [cbn in Hs; lia|split; [reflexivity|lia]|]. exfalso. cbn in Hs. lia. }
      destruct (IH s Er Hss) as [k ->]; [nia|]. now exists k.
Qed.
Lemma bcast_rev_app s k : bcast_rev (s ++ repeat 1 k) s = Some (s ++ repeat 1 k).
Proof.
  induction s as [|a s IH]; cbn [app bcast_rev].
  - destruct k; reflexivity.
  - rewrite IH, Nat.eqb_refl. reflexivity.
Qed.
Lemma rev_repeat {A} (x : A) k : rev (repeat x k) = repeat x k.
Proof.
  induction k as [|k IH]; [reflexivity|]. cbn [repeat rev]. rewrite IH. symmetry. apply repeat_cons.
Qed.
Lemma bcast_padded t s : 0 < size s -> (bcast t s = Some t /\ size t = size s <-> padded s t).
Proof.
  intros Hp. unfold bcast, padded. split.
  - intros [E Hs]. destruct (bcast_rev (rev t) (rev s)) as [r|] eqn:Er; [|discriminate]. inversion E as [Et].
    assert (r = rev t) by (rewrite <- Et, rev_involutive; reflexivity). subst r.
    destruct (bcast_rev_padded (rev t) (rev s) Er) as [k Hk]; [now rewrite !size_rev|now rewrite size_rev|].
    exists k. apply (f_equal (@rev nat)) in Hk. rewrite rev_app_distr, rev_repeat, !rev_involutive in Hk. now rewrite Et.
  - intros [k ->]. rewrite rev_app_distr, rev_repeat, bcast_rev_app, rev_app_distr, rev_involutive, rev_repeat.
    split; [reflexivity|]. clear. induction k as [|k IH]; [reflexivity|]. cbn [repeat app size]. lia.
Qed.

Lemma inplace_exists a b : (exists r, inplace_mul a b = Some r) <-> bcast (shp a) (shp b) = Some (shp a).
Proof.
  unfold inplace_mul, np_bcast2. destruct (bcast (shp a) (shp b)) as [r|].
  - cbn [of_fun shp]. destruct (list_eq_dec Nat.eq_dec r (shp a)) as [->|E].
    + split; [reflexivity|]. eauto.
    + split; [intros [x Hx]; discriminate|]. congruence.
  - split; [intros [x Hx]; discriminate|discriminate].
Qed.
Lemma inplace_shape a b r : inplace_mul a b = Some r -> shp r = shp a.
Proof.
  unfold inplace_mul. destruct (np_bcast2 _ _ _); [|discriminate]. destruct (list_eq_dec _ _ _); [|discriminate]. congruence.
Qed.

Lemma factor_differentiates s n a c v : 0 < size s -> power_comp s [n] [EInt 1] (CArr a) = Some c ->
  (differentiates c v <-> padded s (shp a)).
Proof.
  intros Hp H. rewrite <- (bcast_padded _ _ Hp). unfold power_comp in H. destruct (names_ok [n]); [|discriminate].
  inversion H; subst c; clear H. unfold differentiates. cbn [c_ins c_partials length repeat].
  change (inputs_of [s] v) with [Nd s (v 0)]. unfold power_partials. cbn [coeff_after combine value_loop].
  assert (E1 : exists y, np_power (Nd s (v 0)) (EInt 1) = Some y).
  { pose proof (proj2 (power_defined _ _) (one_defined (Nd s (v 0)))). destruct (np_power _ _); [eauto|congruence]. }
  destruct E1 as [y Ey]. rewrite Ey. pose proof (power_shape _ _ _ Ey) as Hy. cbn [shp] in Hy. split.
  - intros F. destruct (F 0) as [j Hj]; [lia|]. clear F.
    destruct (inplace_mul a y) as [a'|] eqn:Ea; [|discriminate]. cbn [coeff_nd] in Hj.
    assert (Hb : bcast (shp a) s = Some (shp a)) by (rewrite <- Hy; apply inplace_exists; eauto).
    split; [assumption|]. unfold np_bcast2 in Hj. rewrite (inplace_shape _ _ _ Ea) in Hj. cbn [shp] in Hj. rewrite Hb in Hj.
    destruct (deriv_loop 0 0 _ _) as [d'|] eqn:Ed; [|discriminate].
    assert (Hd' : shp d' = shp a).
    { cbn [deriv_loop] in Ed.
      match type of Ed with match ?q with _ => _ end = _ => destruct q; [|discriminate] end.
      match type of Ed with match ?q with _ => _ end = _ => destruct q as [r|] eqn:Er; [|discriminate] end.
      assert (r = d') as <- by congruence.
      now rewrite (inplace_shape _ _ _ Er). }
    assert (Hx : exists j, as_sparse (sparse_partials (np_arange (size s)) (np_arange (size s)) (np_flatten d')) = Some j) by eauto.
    apply diag_exists in Hx. cbn [np_flatten shp] in Hx. rewrite Hd' in Hx. destruct Hx as [Hx|Hx]; [|discriminate].
    congruence.
  - intros [Hb Hs] p Hlt. replace p with 0 by lia.
    assert (Ea : exists a', inplace_mul a y = Some a') by (apply inplace_exists; now rewrite Hy).
    destruct Ea as [a' Ea]. rewrite Ea. cbn [coeff_nd]. unfold np_bcast2. rewrite (inplace_shape _ _ _ Ea). cbn [shp]. rewrite Hb.
    cbn [deriv_loop Nat.eqb expo_pred expo_val].
    assert (E0 : exists z, np_power (Nd s (v 0)) (EInt (1 - 1)) = Some z).
    { pose proof (proj2 (power_defined _ _) (zero_defined (Nd s (v 0)))). change (1 - 1)%Z with 0%Z.
      destruct (np_power (Nd s (v 0)) (EInt 0)); [eauto|congruence]. }
    destruct E0 as [z Ez]. rewrite Ez. pose proof (power_shape _ _ _ Ez) as Hz. cbn [shp] in Hz.
    match goal with |- context [inplace_mul ?d ?m] => assert (Er : exists r, inplace_mul d m = Some r) end.
    { apply inplace_exists. cbn [of_fun np_map shp]. now rewrite Hz. }
    destruct Er as [r Er]. rewrite Er. apply diag_exists. left. cbn [np_flatten shp].
    rewrite (inplace_shape _ _ _ Er). cbn [of_fun shp]. now rewrite Hs.
Qed.

Lemma binop_differentiates op a b s c v : differentiated (KBinop op a b) ->
  of_outcome (py_binop op a b) = Some (s, Some c) -> (differentiates c v <-> slopes_exist (KBinop op a b) v).
Proof.
  intros He H. unfold py_binop in H.
  destruct a as [n t|x|a|]; [|destruct b as [m t|y|b|]; try discriminate| |discriminate].
  - destruct b as [m u|y|b|].
    + destruct op; cbn [elementwise] in H; unfold addition, subtraction, multiplication, division, power in H;
        try (destruct (list_eq_dec Nat.eq_dec t u) as [Etu|]; [|discriminate]; apply of_expr in H as [<- H]);
        try (cbn in H; congruence); cbn [slopes_exist].
      * apply yes. refine (linear_differentiates _ _ _ _ _ v _ H). reflexivity.
      * apply yes. refine (linear_differentiates _ _ _ _ _ v _ H). reflexivity.
      * rewrite (power_differentiates _ _ _ _ _ v H). apply yes. cbn [length]. rewrite inputs2. cbn [combine].
        intros p [|[|i]] x ex Hp Hi; cbn in Hi; [| |destruct i; discriminate]; inversion Hi; subst;
          destruct (Nat.eqb _ _); first [apply zero_defined|apply one_defined].
      * rewrite (power_differentiates _ _ _ _ _ v H). cbn [length]. rewrite inputs2. cbn [combine]. split.
        -- intros F. specialize (F 0 1 _ _ Nat.lt_0_2 eq_refl). cbn [Nat.eqb] in F. now apply inverse_defined.
        -- intros F p [|[|i]] x ex Hp Hi; cbn in Hi; [| |destruct i; discriminate]; inversion Hi; subst;
             destruct (Nat.eqb _ _); first [apply zero_defined|apply one_defined|now apply inverse_defined|now apply square_defined].
    + destruct op; cbn [elementwise] in H; unfold addition, subtraction, multiplication, division, power in H;
        try (destruct (Req_EM_T y 0); [discriminate|]); apply of_expr in H as [<- H]; cbn [slopes_exist].
      * apply yes. refine (linear_differentiates _ _ _ _ _ v _ H). reflexivity.
      * apply yes. refine (linear_differentiates _ _ _ _ _ v _ H). reflexivity.
      * apply yes. apply (power1_differentiates _ _ _ _ _ _ _ H). apply zero_defined.
      * apply yes. apply (power1_differentiates _ _ _ _ _ _ _ H). apply zero_defined.
      * rewrite (power1_differentiates _ _ _ _ _ _ _ H). apply pred_defined.
    + destruct op; cbn [elementwise] in H; unfold addition, subtraction, multiplication, division, power in H.
      * apply of_expr in H as [<- H]. apply yes. refine (linear_differentiates _ _ _ _ _ v _ H). reflexivity.
      * apply of_expr in H as [<- H]. apply yes. refine (linear_differentiates _ _ _ _ _ v _ H). reflexivity.
      * apply of_expr in H as [<- H]. cbn [slopes_exist]. apply (factor_differentiates _ _ _ _ _) with (2 := H).
        destruct He as [E|[E|[E|E]]]; [discriminate|discriminate|discriminate|exact E].
      * destruct (Nat.eqb (size (shp b)) 1); [|discriminate]. destruct (Req_EM_T (dat b 0) 0); [discriminate|].
        apply of_expr in H as [<- H]. cbn [slopes_exist].
        rewrite (factor_differentiates _ _ _ _ v) with (2 := H); [reflexivity|].
        destruct He as [E|[E|[E|E]]]; [discriminate|discriminate|discriminate|exact E].
      * destruct (list_eq_dec Nat.eq_dec t (shp b)) as [E|]; [|discriminate].
        apply of_expr in H as [<- H]. destruct (Nat.eqb_spec (length t) 1) as [L|]; [|discriminate].
        cbn [slopes_exist]. unfold np_list in H. rewrite <- E in H. destruct (size t) as [|k] eqn:Ek.
        -- cbn [seq map] in H. rewrite (power_differentiates _ _ _ _ _ v H). cbn [length]. rewrite inputs1. cbn [combine].
           split; [intros _ i Hi; lia|]. intros _ p i x e _ Hi. destruct i; discriminate.
        -- cbn [seq map] in H. rewrite (power1_differentiates _ _ _ _ _ _ _ H). apply pred_defined.
    + destruct op; cbn in H; congruence.
  - destruct op; cbn [elementwise] in H; unfold addition, subtraction, multiplication, division, power in H;
      try discriminate; apply of_expr in H as [<- H]; cbn [slopes_exist].
    + apply yes. refine (linear_differentiates _ _ _ _ _ v _ H). reflexivity.
    + apply yes. refine (linear_differentiates _ _ _ _ _ v _ H). reflexivity.
    + apply yes. apply (power1_differentiates _ _ _ _ _ _ _ H). apply zero_defined.
    + rewrite (power1_differentiates _ _ _ _ _ _ _ H). apply square_defined.
  - destruct b as [m u|y|b|]; try discriminate. destruct op; discriminate.
Qed.

Lemma rank_one (s : list nat) : length s <= 1 -> s = [] \/ exists n, s = [n].
Proof. destruct s as [|n [|m l]]; cbn; [auto|eauto|lia]. Qed.

Lemma elem_differentiates e s v : differentiates (elem_comp e s) v <-> (e = Sech \/ e = Arcsin -> length s <= 1).
Proof.
  unfold differentiates. cbn [elem_comp c_ins c_partials length].
  change (inputs_of [s] v) with [Nd s (v 0)].
  assert (Hone : (forall p, p < 1 -> exists j, match p with
      | 0 => match elem_partial e (Nd s (v 0)) with
             | Some d => as_sparse (sparse_partials (np_arange (size s)) (np_arange (size s)) d)
             | None => None end
      | S _ => None end = Some j) <->
    exists d, elem_partial e (Nd s (v 0)) = Some d /\ (shp d = [size s] \/ shp d = [])).
  { split.
    - intros H. destruct (H 0 Nat.lt_0_1) as [j Hj]. destruct (elem_partial e _) as [d|]; [|discriminate].
      exists d. split; [reflexivity|]. apply diag_exists. eauto.
    - intros (d & -> & Hd) p Hp. replace p with 0 by lia. now apply diag_exists. }
  rewrite Hone. clear Hone. split.
  - intros (d & Ed & Hd) [-> | ->]; cbn [elem_partial] in Ed.
    + unfold np_bcast2 in Ed. cbn [np_map np_flatten shp] in Ed.
      destruct (bcast s [size s]) as [r|] eqn:Eb; [|discriminate]. inversion Ed; subst d. cbn [of_fun shp] in Hd.
      apply bcast_length in Eb. cbn [length] in Eb. destruct Hd as [->| ->]; cbn in Eb; lia.
    + inversion Ed; subst d. cbn [np_map shp] in Hd. destruct Hd as [->| ->]; cbn; lia.
  - intros H. destruct (any_rank e) eqn:Ea.
    + destruct (elem_partial_dat e (Nd s (v 0)) (or_introl Ea)) as (d & E & Hs & _). eauto.
    + assert (He : e = Sech \/ e = Arcsin) by (destruct e; try discriminate; auto).
      destruct (rank_one s (H He)) as [->|[n ->]].
      * destruct He as [->| ->]; cbn [elem_partial].
        -- unfold np_bcast2. cbn [np_map np_flatten shp]. rewrite bcast_nil_l. eexists. split; [reflexivity|]. now left.
        -- eexists. split; [reflexivity|]. now right.
      * destruct (elem_partial_dat e (Nd [n] (v 0)) (or_intror eq_refl)) as (d & E & Hs & _). eauto.
Qed.

Lemma axis_run_kept neg rho a s x y kept : a < length s -> axis_run neg rho a (Nd s x) = Some (y, kept) -> shp kept = s.
Proof.
  intros Ha. unfold axis_run, np_max_axis. rewrite neg_if_shp. cbn [shp].
  destruct (Nat.eqb _ 0); [discriminate|]. intros E. injection E as _ <-. cbn [np_map2 np_map shp].
  apply spread_spec; [assumption|]. cbn [np_sum_axes of_fun np_map np_map2 shp]. now rewrite neg_if_shp.
Qed.

Lemma ext_differentiates neg rho s names c v : 0 < length names -> elementwise_ext neg rho s names = Some c ->
  differentiates c v.
Proof.
  intros Hn. unfold elementwise_ext. destruct (names_ok names); [|discriminate]. intros E. inversion E; subst c; clear E.
  intros p Hp. cbn [c_ins c_partials] in *. rewrite repeat_length in Hp. cbv zeta.
  destruct (nth_error (inputs_of (repeat s (length names)) v) p) as [y|] eqn:En;
    [|apply nth_error_None in En; rewrite inputs_of_length, repeat_length in En; lia].
  apply diag_exists. left. cbn [np_flatten np_map np_map2 shp]. unfold arg_of. f_equal. f_equal.
  rewrite (proj1 (fold_plus_spec (fun x => ks_exp rho neg x (fmax_of neg (inputs_of (repeat s (length names)) v))) _ _)).
  cbn [shp]. now apply fmax_shp.
Qed.

Lemma even_pow_zero x m : 1 <= m -> (x ^ (2 * m))%R = 0%R -> x = 0%R.
Proof.
  intros Hm E. destruct (Req_dec x 0); [assumption|]. exfalso. apply (pow_nonzero x (2 * m)) in H. contradiction.
Qed.

(** a norm whose entries are all zero *)
Lemma nsum_zero m n b x : 1 <= m -> (forall k, k < n -> b k = true -> x k = 0%R) -> nsum m n b x = 0%R.
Proof.
  intros Hm H. unfold nsum. apply rsum_zero. intros k Hk. destruct (b k) eqn:Eb; [|reflexivity].
  rewrite (H k Hk Eb). apply pow_i. lia.
Qed.
Lemma pn_zero m n b x : nsum m n b x = 0%R -> pn m n b x = 0%R.
Proof. intros E. unfold pn, np_pow. rewrite E. destruct (Rlt_dec 0 0); [lra|reflexivity]. Qed.

Lemma negative_power x m : 1 <= m -> all_defined x (EInt (1 - order m)) -> forall k, k < size (shp x) -> dat x k <> 0%R.
Proof.
  intros Hm H k Hk C. specialize (H k Hk). cbn [pow_defined] in H. unfold is_zero in H. rewrite C in H.
  destruct (Req_EM_T 0 0); [|contradiction]. assert (E : (1 - order m <? 0)%Z = true) by (apply Z.ltb_lt; unfold order; lia).
  rewrite E in H. discriminate.
Qed.

Lemma exists_or_all n (P : nat -> Prop) : (forall k, P k \/ ~ P k) -> (exists k, k < n /\ P k) \/ forall k, k < n -> ~ P k.
Proof.
  intros Hd. induction n as [|n [[k [Hk H]]|IH]].
  - right. lia.
  - left. exists k. split; [lia|assumption].
  - destruct (Hd n) as [H|H]; [left; exists n; split; [lia|assumption]|]. right. intros k Hk.
    destruct (Nat.eq_dec k n) as [->|]; [assumption|]. apply IH. lia.
Qed.

Lemma norm_differentiates m s v : 1 <= m -> (differentiates (norm_comp (order m) s) v <-> norm_nonzero s v).
Proof.
  intros Hm. split.
  - intros H. destruct (H 0) as [j Hj]; [cbn; lia|]. cbn [norm_comp c_ins c_partials] in Hj.
    change (inputs_of [s] v) with [Nd s (v 0)] in Hj. cbn iota in Hj. unfold norm_partials in Hj.
    destruct (np_power (norm_run (order m) (Nd s (v 0))) (EInt (1 - order m))) as [y|] eqn:E; [|discriminate].
    assert (Hd : all_defined (norm_run (order m) (Nd s (v 0))) (EInt (1 - order m))) by (apply power_defined; congruence).
    pose proof (negative_power _ m Hm Hd 0 Nat.lt_0_1) as Hz. cbn [norm_run scalar dat] in Hz. rewrite np_norm_pn in Hz.
    destruct (exists_or_all (size s) (fun k => v 0 k <> 0%R)) as [X|X]; [intros k; destruct (Req_dec (v 0 k) 0); auto|exact X|].
    exfalso. apply Hz. apply pn_zero. apply nsum_zero; [assumption|]. intros k Hk _.
    destruct (Req_dec (v 0 k) 0); [assumption|]. exfalso. now apply (X k).
  - intros Hn. destruct (norm_comp_correct m s Hm) as [_ Hc]. now apply (within_differentiates _ _ _ v Hc).
Qed.

Lemma axis_norm_differentiates m s axes v : 1 <= m ->
  (differentiates (axis_norm_comp (order m) s axes) v <-> NoDup axes /\ axis_norm_nonzero s axes v).
Proof.
  intros Hm. split.
  - intros H. destruct (H 0) as [j Hj]; [cbn; lia|]. cbn [axis_norm_comp c_ins c_partials] in Hj.
    change (inputs_of [s] v) with [Nd s (v 0)] in Hj. cbn iota in Hj.
    assert (Hn : NoDup axes).
    { unfold axis_norm_run in Hj. destruct (np_power (Nd s (v 0)) _) as [xp|]; [|discriminate].
      apply (sum_axes_exists axes xp). destruct (sum_axes_opt axes xp); [eauto|discriminate]. }
    split; [assumption|].
    destruct (axis_norm_run_spec m s axes (v 0) Hm Hn) as (y & E & Hs & Hy). rewrite E in Hj.
    unfold axis_norm_partials in Hj. destruct (np_power y (EInt (1 - order m))) as [y'|] eqn:Ey; [|discriminate].
    assert (Hd : all_defined y (EInt (1 - order m))) by (apply power_defined; congruence).
    intros idx Hi. assert (Hi' : inb (delete axes s) idx) by (rewrite delete_drop; exact Hi).
    pose proof (ravel_lt _ _ Hi') as Hlt.
    pose proof (negative_power _ m Hm Hd (ravel (delete axes s) idx)) as Hz. rewrite Hs in Hz. specialize (Hz Hlt).
    rewrite Hy in Hz by assumption.
    destruct (exists_or_all (size s) (fun k => belongs axes (Nd s (v 0)) idx k = true /\ v 0 k <> 0%R)) as [X|X].
    + intros k. destruct (belongs axes (Nd s (v 0)) idx k); [|right; intros [C _]; discriminate].
      destruct (Req_dec (v 0 k) 0); [right; tauto|left; auto].
    + exact X.
    + exfalso. apply Hz. apply pn_zero. apply nsum_zero; [assumption|]. intros k Hk Hb.
      destruct (Req_dec (v 0 k) 0); [assumption|]. exfalso. apply (X k Hk). split; [|assumption].
      now rewrite belongs_row.
  - intros [Hn Hz]. destruct (axis_norm_correct m s axes Hm Hn) as [_ Hc]. now apply (within_differentiates _ _ _ v Hc).
Qed.

Theorem which_differentiate k s c v : differentiated k -> std k = Some (s, Some c) ->
  (differentiates c v <-> slopes_exist k v).
Proof.
  intros He H. destruct k; cbn [std] in H.
  - cbn [std_elem of_outcome] in H. inversion H; subst; clear H. cbn [slopes_exist]. apply elem_differentiates.
  - now apply binop_differentiates with (s := s).
  - unfold py_neg, multiplication in H. destruct a; try discriminate. apply of_expr in H as [<- H].
    apply yes. apply (power1_differentiates _ _ _ _ _ _ _ H). apply zero_defined.
  - (* sum *)
    apply returns_some in H as [_ H]. apply distinct_some in H. apply yes. unfold sum_comp in H.
    destruct (length xs) as [|n]; [discriminate|].
    assert (Hc : exists n s0 s' f d, c = comp_n s0 n s' f (Some d)).
    { destruct axes as [zs|].
      - destruct n; (destruct (norm_axes _ zs) as [axes|]; [|discriminate]); (destruct (axis_left _ axes); [|discriminate]);
          inversion H; subst; unfold axis_partials;
          rewrite (sparse_partials_vec (size (last_shape xs))) by reflexivity; cbn [as_sparse option_map]; eauto 8.
      - destruct n; inversion H; subst; [eauto 8|]. unfold diag_partials.
        rewrite (sparse_partials_vec (size (last_shape xs))) by reflexivity. cbn [as_sparse option_map]; eauto 8. }
    destruct Hc as (n' & s0 & s' & f & d & ->). intros p Hp. cbn [comp_n c_ins c_partials] in *. rewrite repeat_length in Hp.
    apply Nat.ltb_lt in Hp. rewrite Hp. eauto.
  - (* average *)
    apply returns_some in H as [_ H]. apply distinct_some in H. apply yes. unfold average_comp in H.
    destruct (length xs) as [|n]; [discriminate|].
    assert (Hc : exists n s0 s' f d, c = comp_n s0 n s' f (Some d)).
    { destruct axes as [zs|].
      - destruct n; (destruct (norm_axes _ zs) as [axes|]; [|discriminate]);
          (destruct (entries_averaged _ axes); [|discriminate]); (destruct (axis_left _ axes); [|discriminate]);
          inversion H; subst; unfold axis_partials;
          rewrite (sparse_partials_vec (size (last_shape xs))) by reflexivity; cbn [as_sparse option_map]; eauto 8.
      - destruct n; inversion H; subst; [eauto 8|]. unfold diag_partials.
        rewrite (sparse_partials_vec (size (last_shape xs))) by reflexivity. cbn [as_sparse option_map]; eauto 8. }
    destruct Hc as (n' & s0 & s' & f & d & ->). intros p Hp. cbn [comp_n c_ins c_partials] in *. rewrite repeat_length in Hp.
    apply Nat.ltb_lt in Hp. rewrite Hp. eauto.
  - (* extremum *)
    unfold extremum in H. destruct xs as [|x [|x' xs]]; [destruct axis; discriminate| |].
    + cbn [map name_shape] in H. destruct axis as [z|].
      * destruct (norm_axis (length (x_shape x)) z) as [a|] eqn:Ea; [|discriminate]. apply norm_axis_some in Ea.
        unfold axis_ext in H. destruct (Nat.leb _ 12); [|discriminate]. inversion H; subst; clear H.
        cbn [slopes_exist]. unfold differentiates. cbn [c_ins c_partials length].
        change (inputs_of [x_shape x] v) with [Nd (x_shape x) (v 0)]. cbn iota.
        pose proof (nonzero_extent (x_shape x) a (proj1 Ea)) as Hz. split.
        -- intros Hy b Hb. destruct (Hy 0 Nat.lt_0_1) as [j Hj]. rewrite <- (axis_named_fun _ _ _ _ Ea Hb). apply Hz. intros C.
           rewrite (axis_run_none neg rho a _ (v 0) C) in Hj. discriminate.
        -- intros F p _. specialize (F a Ea). apply Hz in F.
           destruct (axis_run_some neg rho a (x_shape x) (v 0) F) as (y & kept & E & Hs). rewrite E.
           destruct (axis_coo (x_shape x) a kept (proj1 Ea) (axis_run_kept _ _ _ _ _ _ _ (proj1 Ea) E)) as (j & -> & _). eauto.
      * inversion H; subst; clear H. cbn [slopes_exist]. unfold differentiates, scalar_ext. cbn [c_ins c_partials length].
        change (inputs_of [x_shape x] v) with [Nd (x_shape x) (v 0)]. cbn iota. unfold scalar_run, np_max_all.
        replace (shp (if neg then np_map (fun t => (-1 * t)%R) (Nd (x_shape x) (v 0)) else Nd (x_shape x) (v 0)))
          with (x_shape x) by (destruct neg; reflexivity).
        destruct (Nat.eqb_spec (size (x_shape x)) 0) as [E|E].
        -- split; [intros Hy; destruct (Hy 0 Nat.lt_0_1); discriminate|contradiction].
        -- split; [trivial|]. eauto.
    + cbn [map name_shape] in H. destruct axis as [z|]; [discriminate|].
      destruct (all_shapes _ _); [|discriminate].
      apply yes. injection H as <- H. refine (ext_differentiates _ _ _ _ _ v _ H). cbn. lia.
  - (* norm *)
    destruct (norm_order _ _ _ _ _ H) as (m & Hm & ->). unfold pnorm in H. destruct axis as [|zs|]; [| |discriminate].
    + destruct (_ || _); [discriminate|]. inversion H; subst; clear H. cbn [slopes_exist]. now apply norm_differentiates.
    + destruct (_ || _); [discriminate|].
      destruct (norm_axes (length (x_shape x)) zs) as [axes|] eqn:Ea; [|discriminate].
      destruct (_ && _); [|discriminate]. inversion H; subst; clear H. cbn [slopes_exist].
      rewrite (axis_norm_differentiates m _ _ _ Hm). apply norm_axes_inv in Ea. split.
      * intros [Hn Hz]. exists axes. auto.
      * intros (axes' & Ea' & Hn & Hz). rewrite (named_fun _ _ _ _ Ea Ea'). auto.
  - (* inner *)
    apply returns_some in H as [_ H]. apply distinct_some in H.
    destruct (inner_kinds _ _ _ _ H) as [(n & n' & Ex & Ey)|(Hc & zs & zs' & -> & E)].
    + assert (E : slopes_exist (KInner x y axes) v) by (cbn; destruct axes as [[zs zs']|]; [|trivial]; left; rewrite Ex, Ey; auto).
      split; [intros _; exact E|]. intros _. rewrite Ex, Ey in H.
      cbn in H. inversion H; subst. apply (correct_differentiates _ _ v (vector_inner_correct n)).
    + cbn [slopes_exist]. pose proof E as E'. unfold tensor_inner_comp in E'.
      destruct (norm_axes (length (x_shape x)) zs) as [a0|] eqn:E0; [|discriminate].
      destruct (norm_axes (length (x_shape y)) zs') as [a1|] eqn:E1; [|discriminate]. clear E'.
      rewrite (inner_slopes _ _ _ _ _ _ E0 E1 c v E), (once_iff _ _ _ E0), (once_iff _ _ _ E1).
      apply norm_axes_inv in E0, E1.
      pose proof (extents_iff (x_shape x) (x_shape y) a0 a1 (named_bound _ _ _ E0) (named_bound _ _ _ E1)) as Hx.
      split.
      * intros (N0 & N1 & X). right. splits; auto. exists a0, a1. splits; auto. now apply Hx.
      * intros [C|(N0 & N1 & b0 & b1 & B0 & B1 & B)]; [contradiction|].
        rewrite (named_fun _ _ _ _ B0 E0), (named_fun _ _ _ _ B1 E1) in B. splits; auto. now apply Hx.
  - (* dot *)
    apply returns_some in H as [_ H]. apply distinct_some in H. apply yes. unfold dot_comp in H.
    destruct (list_eq_dec Nat.eq_dec (x_shape x) (x_shape y)) as [E|]; [|discriminate]. rewrite <- E in H. clear E.
    assert (Hc : (exists n, c = vector_inner_comp n) \/ exists a, c = comp2 (x_shape x) (x_shape x) (delete [a] (x_shape x))
       (fun x y => Some (np_sum_axes (np_map2 Rmult x y) [a]))
       (fun _ b => as_sparse (sparse_partials (axis_rows (x_shape x) [a]) (np_arange (size (x_shape x))) (np_flatten b)))
       (fun b _ => as_sparse (sparse_partials (axis_rows (x_shape x) [a]) (np_arange (size (x_shape x))) (np_flatten b)))).
    { destruct (x_shape x) as [|n [|n2 l]] eqn:Ex; [|left; exists n; congruence|];
        (destruct axis as [z|]; [|discriminate]; destruct (norm_axis _ z) as [a|]; [|discriminate];
         destruct (Nat.eqb _ 3); [|discriminate]; right; exists a; congruence). }
    destruct Hc as [[n ->]|[a ->]].
    + apply (correct_differentiates _ _ v (vector_inner_correct n)).
    + intros p Hp. cbn [comp2 c_ins c_partials length] in *. change (inputs_of [x_shape x; x_shape x] v) with [Nd (x_shape x) (v 0); Nd (x_shape x) (v 1)].
      destruct p as [|[|p]]; [| |lia]; now apply (vec_exists (size (x_shape x))).
  - (* outer *)
    apply returns_some in H as [_ H]. apply distinct_some in H. inversion H; subst c; clear H. apply yes.
    unfold outer_comp.
    assert (Hc : (exists n n', x_shape x = [n] /\ x_shape y = [n']) \/
      forall A (f : nat -> nat -> A) g, match x_shape x, x_shape y with [n0], [n1] => f n0 n1 | _, _ => g end = g).
    { destruct (x_shape x) as [|n [|n2 l]]; destruct (x_shape y) as [|n' [|n2' l']]; eauto. }
    destruct Hc as [(n & n' & -> & ->)|Hc].
    + intros p Hp. cbn [comp2 c_ins c_partials length] in *. change (inputs_of [[n]; [n']] v) with [Nd [n] (v 0); Nd [n'] (v 1)].
      destruct p as [|[|p]]; [| |lia]; apply (vec_exists (n * n')); cbn; try reflexivity; f_equal; lia.
    + rewrite Hc. intros p Hp. cbn [comp2 c_ins c_partials length] in *.
      change (inputs_of [x_shape x; x_shape y] v) with [Nd (x_shape x) (v 0); Nd (x_shape y) (v 1)].
      destruct p as [|[|p]]; [| |lia]; apply (vec_exists (size (x_shape x) * size (x_shape y))); cbn; try reflexivity; f_equal; lia.
  - (* matvec *)
    apply yes. unfold matvec_comp in H.
    destruct (x_shape x) as [|m [|n [|? ?]]]; try discriminate. destruct (x_shape y) as [|n' [|? ?]]; try discriminate.
    destruct (Nat.eqb_spec n n') as [En|]; [|discriminate]. subst n'. injection H as <- H. apply distinct_some in H. inversion H; subst c; clear H.
    intros p Hp. cbn [comp2 c_ins c_partials length] in *. change (inputs_of [[m; n]; [n]] v) with [Nd [m; n] (v 0); Nd [n] (v 1)].
    destruct p as [|[|p]]; [|eauto|lia]. apply (vec_exists (m * n)); cbn; f_equal; lia.
  - (* matmat *)
    apply yes. unfold matmat_comp in H.
    assert (Hc : exists m n p, c = matmat_core m n p).
    { destruct (x_shape x) as [|m [|n [|? ?]]]; try discriminate. destruct (x_shape y) as [|n' [|p [|? ?]]]; try discriminate;
        (destruct (Nat.eqb n n'); [|discriminate]; injection H as <- H; apply distinct_some in H;
         destruct (reshape_val_ok y); [|discriminate]; inversion H; eauto). }
    destruct Hc as (m & n & p & ->). apply (correct_differentiates _ _ v (matmat_core_correct m n p)).
  - (* cross *)
    apply returns_some in H as [_ H]. apply distinct_some in H. apply yes.
    assert (Hc : x_shape x = x_shape y /\ nth_error (x_shape x) axis = Some 3 /\ length (x_shape x) <= 11).
    { unfold cross_comp in H. destruct (list_eq_dec Nat.eq_dec _ _) as [E|]; [|discriminate]. split; [assumption|].
      destruct (nth_error (x_shape x) axis) as [[|[|[|[|?]]]]|] eqn:En; try discriminate. split; [reflexivity|].
      destruct (Nat.leb_spec (length (delete [axis] (x_shape x))) 10); [|discriminate].
      pose proof (ReduceProofs.delete_length [axis] (x_shape x)) as Hd. cbn [length] in Hd. lia. }
    destruct Hc as (E & En & Hl). destruct (cross_correct (x_shape x) axis En Hl) as (c' & Ec & _ & _ & Hc').
    rewrite <- E, Ec in H. inversion H; subst c'. apply (correct_differentiates _ _ v Hc').
  - (* rotation *)
    inversion H; subst; clear H. cbn [slopes_exist]. split.
    + intros F. destruct (F 0) as [j Hj]; [cbn; lia|]. cbn [rot_comp comp1 c_ins c_partials] in Hj.
      change (inputs_of [x_shape x] v) with [Nd (x_shape x) (v 0)] in Hj. cbn iota in Hj.
      destruct (rot_positions axis) as [t|] eqn:E; [|discriminate]. unfold rot_positions in E.
      destruct (Nat.eq_dec axis 120); [auto|]. destruct (Nat.eq_dec axis 121); [auto|]. destruct (Nat.eq_dec axis 122); [auto|].
      exfalso. clear Hj F. do 123 (destruct axis as [|axis]; [congruence|]). discriminate.
    + intros Ha. assert (E : exists k, k < 3 /\ axis = 120 + k).
      { destruct Ha as [->|[->| ->]]; [exists 0|exists 1|exists 2]; split; lia. }
      destruct E as (k & Hk & ->). apply (correct_differentiates _ _ v (proj2 (rotmat_correct (x_shape x) k Hk))).
  - inversion H; subst; clear H. apply yes. intros p Hp. cbn in Hp. replace p with 0 by lia. cbn [reshape_comp comp1 c_ins c_partials].
    now apply (vec_exists (size (x_shape x))).
  - inversion H; subst; clear H. apply yes. apply (correct_differentiates _ _ v (transpose_correct (x_shape x))).
  - apply returns_some in H as [_ H]. apply yes. unfold reorder_comp in H.
    destruct (reorder_out_shape _ _); [|discriminate]. destruct (reorder_partials _ _); [|discriminate].
    inversion H; subst; clear H. intros p Hp. cbn in Hp. replace p with 0 by lia. cbn. eauto.
  - destruct (expand_std _ _ _) as [e|] eqn:E in H; [|discriminate]. injection H as <- H. apply yes.
    unfold expand_comp in H. rewrite E in H. inversion H; subst c; clear H.
    assert (Hj : exists j, as_sparse (expansion_partials s0 e) = Some j).
    { destruct e as [|d].
      - cbn [expansion_partials]. rewrite (sparse_partials_scalar (size s0)) by reflexivity. cbn. eauto.
      - assert (Hd : exists sel, decompose_shape_tuple s0 sel = Some d).
        { unfold expand_std in E. match type of E with match ?q with _ => _ end = _ => destruct q as [e|]; [|discriminate] end.
          destruct (list_eq_dec Nat.eq_dec (x_shape x) [1]); [discriminate|]. destruct e as [sel|]; [|discriminate].
          exists sel. destruct (decompose_shape_tuple s0 sel) as [d'|]; [|discriminate].
          destruct (list_eq_dec Nat.eq_dec _ _); [|discriminate]. congruence. }
        destruct Hd as [sel Hd]. pose proof (array_expand_correct s0 sel d Hd) as Hc.
        apply (correct_differentiates _ _ v) in Hc. destruct (Hc 0) as [j Hj]; [cbn; lia|]. cbn in Hj. eauto. }
    intros p Hp. cbn in Hp. replace p with 0 by lia. exact Hj.
  - (* einsum *)
    destruct He as (SN & _ & X & NE & subs & out & P & U). apply returns_some in H as [_ H]. cbn [slopes_exist].
    rewrite (einsum_differentiates _ _ _ _ _ _ v SN P X NE U H). split.
    + intros F subs' out' P'. rewrite P in P'. now injection P' as <- <-.
    + intros F. now apply F.
  - destruct He as (SN & _ & X & T & NE & U). apply returns_some in H as [ES H]. cbn [slopes_exist]. cbv zeta.
    now apply (tuples_differentiate sparse _ _ s).
  - (* if_else *)
    unfold if_else in H. destruct (list_eq_dec Nat.eq_dec _ _); [|discriminate]. injection H as <- H.
    unfold cond_comp in H. destruct (_ && _); [|discriminate]. inversion H; subst; clear H. cbn [slopes_exist].
    unfold differentiates. cbn [c_ins c_partials length].
    change (inputs_of [x_val c0; x_val t; x_val f] v) with [Nd (x_val c0) (v 0); Nd (x_val t) (v 1); Nd (x_val f) (v 2)].
    unfold cond_partials, truth_neg, negative. cbn [shp dat]. cbv zeta.
    destruct (Nat.eqb_spec (size (x_val c0)) 1) as [E|E].
    + destruct (Rlt_dec (v 0 0) 0) as [L|L].
      * split.
        -- intros F. splits; [assumption| |contradiction]. intros _. specialize (F 2). cbn iota in F.
           now apply diag_exists in F; [|lia].
        -- intros (_ & F & _) p Hp. specialize (F L). destruct p as [|[|[|p]]]; [eauto| | |lia]; apply diag_exists; [now right|exact F].
      * split.
        -- intros F. splits; [assumption|contradiction|]. intros _. specialize (F 1). cbn iota in F.
           now apply diag_exists in F; [|lia].
        -- intros (_ & _ & F) p Hp. specialize (F L). destruct p as [|[|[|p]]]; [eauto| | |lia]; apply diag_exists; [exact F|now right].
    + split; [intros F; destruct (F 0) as [j Hj]; [lia|discriminate]|]. intros [C _]; contradiction.
Qed.

(** sum(x, axes=(0, -2)) of a matrix: the partials are declared, compute always raises *)
Example named_twice : let k := KSum [Facts 0 [2; 3] [2; 3]] (Some [0; -2]%Z) in
  exists c, std k = Some ([3], Some c) /\ forall v, ~ delivers c v /\ differentiates c v.
Proof.
  intros k. destruct (std k) as [[s [c|]]|] eqn:E; [| |]; try (exfalso; vm_compute in E; discriminate).
  exists c. split.
  - pose proof E as E'. unfold k in E'. vm_compute in E'. injection E' as <- _. reflexivity.
  - intros v. split.
    + rewrite (which_deliver k s c v I E). cbn [k value_exists last_of last x_shape length].
      intros (axes & Ha & Hn). inversion Ha as [|z a zs l Hz Hl E1 E2]; subst. inversion Hl as [|z' b zs' l' Hz' Hl' E1 E2]; subst.
      inversion Hl'; subst. assert (a = 0) by (destruct Hz; lia). assert (b = 0) by (destruct Hz'; lia). subst.
      inversion Hn as [|? ? Hi _]. apply Hi. now left.
    + rewrite (which_differentiate k s c v I E). exact I.
Qed.

(** x ** 0 for two numbers: always a value, partials only away from zero *)
Example power_zero : let k := KBinop Pow (OVar 0 [2]) (ONum 0%R) in
  exists c, std k = Some ([2], Some c) /\
    forall v, delivers c v /\ (differentiates c v <-> v 0 0 <> 0%R /\ v 0 1 <> 0%R).
Proof.
  intros k. destruct (std k) as [[s [c|]]|] eqn:E; [| |]; try (exfalso; cbn in E; discriminate).
  assert (Hw : whole 0) by (exists 0%Z; reflexivity).
  exists c. split; [cbn in E; injection E as <- <-; reflexivity|]. intros v. split.
  - apply (which_deliver k s c v I E). intros i _. left. split; [exact Hw|lra].
  - rewrite (which_differentiate k s c v I E). cbn [k slopes_exist]. unfold all_of, slope_exists. split.
    + intros H. split; [specialize (H 0)|specialize (H 1)]; (destruct H as [[_ H]|[H _]]; [cbn; lia|apply H; lra|contradiction]).
    + intros [H0 H1] i Hi. left. split; [exact Hw|]. intros _. cbn in Hi.
      destruct i as [|[|i]]; [assumption|assumption|lia].
Qed.

(** Matrices (2,3) and (4,5) multiplied over the axes of extents 3 and 4: accepted and built, never a value;
    (2,3) and (3,4): always a value and partials.  x * x * y: always a value, never partials. *)
Example einsum_cases :
  let ij_jk_ik := [105; 106; 44; 106; 107; 45; 62; 105; 107] in
  let i_i_i := [105; 44; 105; 44; 105; 45; 62; 105] in
  (exists c, std (KEinsum false ij_jk_ik [Facts 0 [2; 3] []; Facts 1 [4; 5] []]) = Some ([2; 5], Some c) /\ forall v, ~ delivers c v) /\
  (exists c, std (KEinsum false ij_jk_ik [Facts 0 [2; 3] []; Facts 1 [3; 4] []]) = Some ([2; 4], Some c) /\
     forall v, delivers c v /\ differentiates c v) /\
  (exists c, std (KEinsum false i_i_i [Facts 0 [2] []; Facts 0 [2] []; Facts 1 [2] []]) = Some ([2], Some c) /\
     forall v, delivers c v /\ ~ differentiates c v).
Proof.
  intros mm tt.
  assert (Pm : np_subscripts mm = Some ([[105; 106]; [106; 107]], [105; 107])) by reflexivity.
  assert (Pt : np_subscripts tt = Some ([[105]; [105]; [105]], [105])) by reflexivity.
  assert (B : forall op xs s, option_map fst (std (KEinsum false op xs)) = Some s -> exists c, std (KEinsum false op xs) = Some (s, Some c)).
  { intros op xs s H. cbn [std] in H |- *. unfold einsum_shape, einsum_any, einsum_comp in *.
    destruct (compute_einsum_shape _ _) as [t|]; [|discriminate]. cbn in H. injection H as ->. cbn. eauto. }
  assert (SP : forall l n, n <= 2 -> (forall c, In c l -> c = 44 \/ c = 45 \/ c = 62 \/ 105 <= c <= 107) -> spare l n).
  { intros l n Hn H. exists (firstn n [97; 98]). destruct n as [|[|[|n]]]; [| | |lia]; cbn;
      (split; [repeat constructor; cbn; lia|split; [reflexivity|]]); intros c Hc;
      (split; [lia|intros C; apply H in C; lia]). }
  splits.
  - destruct (B mm [Facts 0 [2; 3] []; Facts 1 [4; 5] []] [2; 5] eq_refl) as [c E]. exists c. split; [exact E|]. intros v D.
    apply (which_deliver _ _ _ v) in E.
    + apply E in D. destruct (D _ _ Pm) as ((ext & F) & _). injection F. congruence.
    + cbn [evaluated]. splits; [|intros x [<-|[<-|[]]]; cbn; lia|eauto].
      intros x y [<-|[<-|[]]] [<-|[<-|[]]]; cbn; congruence.
  - destruct (B mm [Facts 0 [2; 3] []; Facts 1 [3; 4] []] [2; 4] eq_refl) as [c E]. exists c. split; [exact E|]. intros v.
    assert (SN : same_named [Facts 0 [2; 3] []; Facts 1 [3; 4] []]) by (intros x y [<-|[<-|[]]] [<-|[<-|[]]]; cbn; congruence).
    assert (NU : no_unit_axes [Facts 0 [2; 3] []; Facts 1 [3; 4] []]) by (intros x [<-|[<-|[]]]; cbn; lia).
    assert (FI : subscripts_fit [[105; 106]; [106; 107]] [105; 107] [[2; 3]; [3; 4]]).
    { unfold subscripts_fit. splits; [|repeat constructor; cbn; lia|intros a Ha; cbn in *; lia]. exists (fun c => c - 103). reflexivity. }
    assert (EV : evaluated (KEinsum false mm [Facts 0 [2; 3] []; Facts 1 [3; 4] []])) by (cbn [evaluated]; eauto).
    assert (DV : differentiated (KEinsum false mm [Facts 0 [2; 3] []; Facts 1 [3; 4] []])).
    { cbn [differentiated]. splits; [exact SN|exact NU|discriminate|discriminate|].
      exists [[105; 106]; [106; 107]], [105; 107]. split; [reflexivity|]. intros r Hr. apply SP; [|cbn; lia].
      cbn in Hr. intuition (subst; cbn; lia). }
    split.
    + apply (which_deliver _ _ _ v EV E).
      intros subs out P. rewrite Pm in P. injection P as <- <-. exact FI.
    + apply (which_differentiate _ _ _ v DV E).
      intros subs out P. rewrite Pm in P. injection P as <- <-. split; [exact FI|]. exists [0; 1], []. splits; [reflexivity|repeat constructor; cbn; lia|intros ? []].
  - destruct (B tt [Facts 0 [2] []; Facts 0 [2] []; Facts 1 [2] []] [2] eq_refl) as [c E]. exists c. split; [exact E|]. intros v.
    assert (SN : same_named [Facts 0 [2] []; Facts 0 [2] []; Facts 1 [2] []]) by (intros x y [<-|[<-|[<-|[]]]] [<-|[<-|[<-|[]]]]; cbn; congruence).
    assert (NU : no_unit_axes [Facts 0 [2] []; Facts 0 [2] []; Facts 1 [2] []]) by (intros x [<-|[<-|[<-|[]]]]; cbn; lia).
    assert (FI : subscripts_fit [[105]; [105]; [105]] [105] [[2]; [2]; [2]]).
    { unfold subscripts_fit. splits; [|repeat constructor; cbn; lia|intros a Ha; cbn in *; lia]. exists (fun _ => 2). reflexivity. }
    assert (EV : evaluated (KEinsum false tt [Facts 0 [2] []; Facts 0 [2] []; Facts 1 [2] []])) by (cbn [evaluated]; eauto).
    assert (DV : differentiated (KEinsum false tt [Facts 0 [2] []; Facts 0 [2] []; Facts 1 [2] []])).
    { cbn [differentiated]. splits; [exact SN|exact NU|discriminate|discriminate|].
      exists [[105]; [105]; [105]], [105]. split; [reflexivity|]. intros r Hr. apply SP; [|cbn; lia].
      cbn in Hr. intuition (subst; cbn; lia). }
    split.
    + apply (which_deliver _ _ _ v EV E).
      intros subs out P. rewrite Pt in P. injection P as <- <-. exact FI.
    + intros D. apply (proj1 (which_differentiate _ _ _ v DV E)) in D.
      destruct (D _ _ Pt) as [_ O]. exact (proj1 (proj2 order_cases) O).
Qed.

(** inner over axes: no partials for an axis named twice; with one name positive and one negative they are there *)
Example inner_cases :
  (exists c, std (KInner (Facts 0 [2; 2] []) (Facts 1 [2; 2] []) (Some ([0; -2], [0; 1])%Z)) = Some ([2], Some c) /\
     forall v, ~ delivers c v /\ ~ differentiates c v) /\
  (exists c, std (KInner (Facts 0 [2; 3; 4] []) (Facts 1 [4; 2; 5] []) (Some ([0; -1], [1; -3])%Z)) = Some ([3; 5], Some c) /\
     forall v, delivers c v /\ differentiates c v).
Proof.
  assert (B : forall (o : option (shape * option component)) s, match o with Some (t, Some _) => Some t | _ => None end = Some s ->
    exists c, o = Some (s, Some c)).
  { intros [[t [c|]]|] s H; inversion H; subst. eauto. }
  split.
  - set (k := KInner _ _ _). destruct (B (std k) [2] eq_refl) as [c E]. exists c. split; [exact E|].
    assert (H : ~ once 2 [0; -2]%Z).
    { intros (axes & Ha & Hn). inversion Ha as [|z a zs l Hz Hl E1 E2]; subst. inversion Hl as [|z' b zs' l' Hz' Hl' E1 E2]; subst.
      inversion Hl'; subst. assert (a = 0) by (destruct Hz; lia). assert (b = 0) by (destruct Hz'; lia). subst.
      inversion Hn as [|? ? Hi _]. apply Hi. now left. }
    intros v. rewrite (which_deliver k _ c v I E), (which_differentiate k _ c v I E).
    cbn [k value_exists slopes_exist x_shape length]. split; intros [[C _]|[C _]]; [discriminate|contradiction|discriminate|contradiction].
  - set (k := KInner _ _ _). destruct (B (std k) [3; 5] eq_refl) as [c E]. exists c. split; [exact E|].
    assert (H0 : Forall2 (axis_named 3) [0; -1]%Z [0; 2]) by (repeat constructor; cbn; lia).
    assert (H1 : Forall2 (axis_named 3) [1; -3]%Z [1; 0]) by (repeat constructor; cbn; lia).
    assert (H : once 3 [0; -1]%Z /\ once 3 [1; -3]%Z /\ paired_extents [2; 3; 4] [4; 2; 5] [0; -1]%Z [1; -3]%Z).
    { splits.
      - exists [0; 2]. split; [assumption|]. apply nodupb_NoDup. reflexivity.
      - exists [1; 0]. split; [assumption|]. apply nodupb_NoDup. reflexivity.
      - exists [0; 2], [1; 0]. splits; [assumption|assumption|]. repeat constructor. }
    intros v. rewrite (which_deliver k _ c v I E), (which_differentiate k _ c v I E).
    cbn [k value_exists slopes_exist x_shape length]. auto.
Qed.
