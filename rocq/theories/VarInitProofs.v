From Coq Require Import Arith Lia List.
From Verif Require Import PyBase VarInit SpecVarInit.
Import ListNotations.

Lemma loop_none l : forall f, init_loop f l = None <-> exists n, In (KwName n) l.
Proof.
  induction l as [|k l IH]; intros f; cbn.
  - split; [discriminate|intros [n []]].
  - destruct k; cbn; try (rewrite IH; split; [intros [m H]; eauto|intros [m [H|H]]; [discriminate|eauto]]).
    split; [eauto|reflexivity].
Qed.

Lemma loop_fields l : forall f g, init_loop f l = Some g -> NoDup (map word l) ->
  f_name g = f_name f /\ field_is l KwShape (f_shape f) (f_shape g) /\
  match f_val g with Some v => In (KwVal v) l \/ f_val f = Some v | None => f_val f = None end /\
  ((forall v, ~ In (KwVal v) l) \/ exists v, f_val g = Some v /\ In (KwVal v) l) /\
  match f_units g with Some u => In (KwUnits u) l \/ f_units f = Some u | None => f_units f = None end /\
  ((forall u, ~ In (KwUnits u) l) \/ exists u, f_units g = Some u /\ In (KwUnits u) l).
Proof.
  induction l as [|k l IH]; intros f g H ND.
  - cbn in H. inversion H; subst g. splits; auto; try (right; split; auto); try (destruct (f_val f)); try (destruct (f_units f)); auto.
  - cbn [map] in ND. apply NoDup_cons_iff in ND. destruct ND as [Nk ND]. cbn [init_loop] in H.
    assert (A : forall k', In k' l -> word k' <> word k).
    { intros k' Hk E. apply Nk. rewrite <- E. now apply in_map. }
    destruct (init_step f k) as [f'|] eqn:E; [|discriminate].
    destruct (IH f' g H ND) as (Hn & Hs & Hv & Wv & Hu & Wu). clear IH.
    assert (T : (forall s, k <> KwShape s) -> (forall v, k <> KwVal v) -> (forall u, k <> KwUnits u) -> f' = f ->
      f_name g = f_name f /\ field_is (k :: l) KwShape (f_shape f) (f_shape g) /\
      match f_val g with Some v => In (KwVal v) (k :: l) \/ f_val f = Some v | None => f_val f = None end /\
      ((forall v, ~ In (KwVal v) (k :: l)) \/ exists v, f_val g = Some v /\ In (KwVal v) (k :: l)) /\
      match f_units g with Some u => In (KwUnits u) (k :: l) \/ f_units f = Some u | None => f_units f = None end /\
      ((forall u, ~ In (KwUnits u) (k :: l)) \/ exists u, f_units g = Some u /\ In (KwUnits u) (k :: l))).
    { intros Ks Kv Ku ->. splits; [exact Hn| | | | |].
      - destruct Hs as [Hs|[Hs Es]]; [left; now right|right; split; [|exact Es]].
        intros y [Hy|Hy]; [now apply (Ks y)|now apply (Hs y)].
      - destruct (f_val g); [destruct Hv; [left; now right|now right]|exact Hv].
      - destruct Wv as [Wv|(v & Wv & Iv)]; [left|right; exists v; split; [exact Wv|now right]].
        intros v [Hy|Hy]; [now apply (Kv v)|now apply (Wv v)].
      - destruct (f_units g); [destruct Hu; [left; now right|now right]|exact Hu].
      - destruct Wu as [Wu|(u & Wu & Iu)]; [left|right; exists u; split; [exact Wu|now right]].
        intros u [Hy|Hy]; [now apply (Ku u)|now apply (Wu u)]. }
    destruct k as [n|s|v|u|key o]; cbn in E; [discriminate| | | |inversion E; subst f'; apply T; congruence].
    + inversion E; subst f'; clear T E. cbn [f_name f_shape f_val f_units] in *. splits; [exact Hn| | | | |].
      * left. destruct Hs as [Hs|[_ ->]]; [now right|now left].
      * destruct (f_val g); [destruct Hv; [left; now right|now right]|exact Hv].
      * destruct Wv as [Wv|(w & Wv & Iv)]; [left|right; exists w; split; [exact Wv|now right]].
        intros w [Hy|Hy]; [discriminate|now apply (Wv w)].
      * destruct (f_units g); [destruct Hu; [left; now right|now right]|exact Hu].
      * destruct Wu as [Wu|(w & Wu & Iu)]; [left|right; exists w; split; [exact Wu|now right]].
        intros w [Hy|Hy]; [discriminate|now apply (Wu w)].
    + inversion E; subst f'; clear T E. cbn [f_name f_shape f_val f_units] in *.
      assert (Gv : f_val g = Some v).
      { destruct (f_val g) as [w|]; [|discriminate]. destruct Hv as [Hv|Hv]; [destruct (A _ Hv eq_refl)|congruence]. }
      splits; [exact Hn| | | | |].
      * destruct Hs as [Hs|[Hs Es]]; [left; now right|right; split; [|exact Es]].
        intros y [Hy|Hy]; [discriminate|now apply (Hs y)].
      * rewrite Gv. left. now left.
      * right. exists v. split; [exact Gv|now left].
      * destruct (f_units g); [destruct Hu; [left; now right|now right]|exact Hu].
      * destruct Wu as [Wu|(w & Wu & Iu)]; [left|right; exists w; split; [exact Wu|now right]].
        intros w [Hy|Hy]; [discriminate|now apply (Wu w)].
    + inversion E; subst f'; clear T E. cbn [f_name f_shape f_val f_units] in *.
      assert (Gu : f_units g = Some u).
      { destruct (f_units g) as [w|]; [|discriminate]. destruct Hu as [Hu|Hu]; [destruct (A _ Hu eq_refl)|congruence]. }
      splits; [exact Hn| | | | |].
      * destruct Hs as [Hs|[Hs Es]]; [left; now right|right; split; [|exact Es]].
        intros y [Hy|Hy]; [discriminate|now apply (Hs y)].
      * destruct (f_val g); [destruct Hv; [left; now right|now right]|exact Hv].
      * destruct Wv as [Wv|(w & Wv & Iv)]; [left|right; exists w; split; [exact Wv|now right]].
        intros w [Hy|Hy]; [discriminate|now apply (Wv w)].
      * rewrite Gu. left. now left.
      * right. exists u. split; [exact Gu|now left].
Qed.

Lemma variable_fields id l f : kwargs_ok l -> variable id l = Some f -> fields_right id l f.
Proof.
  intros ND H. destruct (loop_fields l _ f H ND) as (Hn & Hs & Hv & Wv & Hu & Wu).
  assert (NN : ~ exists n, In (KwName n) l).
  { intros X. apply (loop_none l (Fields id [1] None None)) in X. unfold variable in H. congruence. }
  cbn [f_name f_shape f_val f_units] in *. unfold fields_right. splits.
  - right. split; [intros y Hy; apply NN; eauto|exact Hn].
  - exact Hs.
  - destruct (f_val f) as [v|]; [destruct Hv as [Hv|Hv]; [exact Hv|discriminate]|].
    destruct Wv as [Wv|(v & Wv & _)]; [exact Wv|discriminate].
  - destruct (f_units f) as [u|]; [destruct Hu as [Hu|Hu]; [exact Hu|discriminate]|].
    destruct Wu as [Wu|(u & Wu & _)]; [exact Wu|discriminate].
Qed.

Lemma variable_raises id l : variable id l = None <-> exists n, In (KwName n) l.
Proof. apply loop_none. Qed.

Lemma variable_refuted : exists id l, kwargs_ok l /\ ~ exists f, variable id l = Some f.
Proof.
  exists 7, [KwShape [2; 3]; KwName 4]. split.
  - unfold kwargs_ok. cbn. constructor; [cbn; lia|]. constructor; [cbn; tauto|constructor].
  - intros [f H]. discriminate.
Qed.

Example variable_case :
  variable 7 [KwUnits 2; KwShape [2; 3]; KwOther 0 9] = Some (Fields 7 [2; 3] None (Some 2)) /\
  kwargs_ok [KwUnits 2; KwShape [2; 3]; KwOther 0 9].
Proof.
  split; [reflexivity|]. unfold kwargs_ok. cbn. repeat constructor; cbn; lia.
Qed.
