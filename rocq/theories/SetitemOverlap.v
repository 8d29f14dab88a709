(** Indexed assignment after an overlap has been reported: what the output then
    holds, and which of the declared derivatives are right. *)
From Coq Require Import Reals Lra Lia Arith List Bool ZArith.
From Verif Require Import PyBase RSum NdArray NdEinsum NdIndex Component CompReorder JacSpec EinsumCalc
  Indexing SpecIndex IndexProofs Setitem SpecSetitem SetitemProofs.
Import ListNotations.
Local Open Scope Z_scope.

(** ---- what is stored ---- *)

Definition kept (s : list nat) (l : list assignment) (o : out_var) : Prop :=
  ov_shape o = s /\ Forall2 (rep s) l (ov_tgts o).

Lemma kept_step : forall s l o a o' r, kept s l o -> fitting s (as_key a) ->
  setitem o (as_key a) (as_name a) (as_shape a) = (o', r) ->
  match r with Rejected => kept s l o' | _ => kept s (l ++ [a]) o' end.
Proof.
  intros s l o a o' r (Hs & Hrep) Hf H. unfold setitem in H. rewrite Hs in H.
  destruct (key_targets s (as_key a)) as [t|] eqn:Ek; [|injection H as <- <-; now split].
  destruct (list_eq_dec Nat.eq_dec (shp t) (as_shape a)) as [Esh|Esh]; [|injection H as <- <-; now split].
  fold (all_below s t) in H. destruct (all_below s t) eqn:Eb; [|injection H as <- <-; now split].
  destruct (targets_sound s (as_key a) t Hf Ek Eb) as [W (ls & G)].
  pose proof (gives_idx _ _ _ _ G) as Ei. destruct G as (Hne & Hi & Hx & Hsh & Hd).
  destruct (name_used o (as_name a)) eqn:En; [injection H as <- <-; now split|].
  assert (R1 : Forall2 (rep s) (l ++ [a]) (ov_tgts o ++ [Target (as_name a) (as_shape a) (map (dat t) (seq 0 (size (shp t))))])).
  { apply Forall2_app; [assumption|]. constructor; [|constructor]. exists ls. cbn [tg_name tg_shape tg_idx].
    splits; try assumption; try reflexivity. congruence. }
  destruct (existsb _ _); injection H as <- <-; split; try reflexivity; exact R1.
Qed.

Lemma kept_steps : forall hs s l o o' rs, kept s l o ->
  Forall (fun a => fitting s (as_key a)) hs -> setitems o hs = (o', rs) -> kept s (l ++ recorded hs rs) o'.
Proof.
  induction hs as [|a hs IH]; intros s l o o' rs St Hf H; cbn [setitems] in H.
  - injection H as <- <-. cbn [recorded]. now rewrite app_nil_r.
  - inversion_clear Hf as [|? ? Hfa Hfr].
    destruct (setitem o (as_key a) (as_name a) (as_shape a)) as [o1 r] eqn:E1.
    destruct (setitems o1 hs) as [o2 rs'] eqn:E2. injection H as <- <-.
    pose proof (kept_step s l o a o1 r St Hfa E1) as K. cbn [recorded].
    destruct r; specialize (IH s _ o1 o2 rs' K Hfr E2); try exact IH; now rewrite <- app_assoc in IH.
Qed.

Lemma built_steps : forall hs o o' rs, setitems o hs = (o', rs) ->
  (ov_built o' = true <-> ov_built o = true \/ In Done rs).
Proof.
  induction hs as [|a hs IH]; intros o o' rs H; cbn [setitems] in H.
  - injection H as <- <-. split; [now left|intros [E|[]]; exact E].
  - destruct (setitem o (as_key a) (as_name a) (as_shape a)) as [o1 r] eqn:E1.
    destruct (setitems o1 hs) as [o2 rs'] eqn:E2. injection H as <- <-. rewrite (IH _ _ _ E2).
    assert (B : ov_built o1 = true <-> ov_built o = true \/ r = Done).
    { unfold setitem in E1.
      destruct (key_targets (ov_shape o) (as_key a)) as [t0|];
        [|injection E1 as <- <-; cbn [ov_built]; split; [now left|intros [E|E]; [exact E|discriminate]]].
      destruct (list_eq_dec Nat.eq_dec (shp t0) (as_shape a));
        [|injection E1 as <- <-; cbn [ov_built]; split; [now left|intros [E|E]; [exact E|discriminate]]].
      destruct (forallb _ _);
        [|injection E1 as <- <-; cbn [ov_built]; split; [now left|intros [E|E]; [exact E|discriminate]]].
      destruct (name_used o (as_name a));
        [injection E1 as <- <-; cbn [ov_built]; split; [now left|intros [E|E]; [exact E|discriminate]]|].
      destruct (existsb _ _); injection E1 as <- <-; cbn [ov_built].
      - split; [now left|intros [E|E]; [exact E|discriminate]].
      - split; [now right|reflexivity]. }
    rewrite B. cbn [In]. intuition congruence.
Qed.

(** ---- the component ---- *)

Lemma writes_last : forall idxs ins y p idx x z,
  nth_error idxs p = Some idx -> nth_error ins p = Some x -> In z idx ->
  (forall q idq, (p < q)%nat -> nth_error idxs q = Some idq -> ~ In z idq) ->
  writes y idxs ins z = dat x (find_pos idx z).
Proof.
  induction idxs as [|i0 idxs IH]; intros ins y p idx x z Hp Hx Hz Hl; [destruct p; discriminate|].
  destruct ins as [|x0 ins]; [destruct p; discriminate|]. cbn [writes].
  destruct p as [|p]; cbn [nth_error] in Hp, Hx.
  - injection Hp as <-. injection Hx as <-. rewrite writes_out.
    + unfold write. now rewrite (proj2 (mem_In z i0) Hz).
    + intros Hin. destruct (concat_In_nth _ _ Hin) as (q & idq & Hq & Hzq).
      apply (Hl (S q) idq); [lia|exact Hq|exact Hzq].
  - apply (IH ins _ p idx x z Hp Hx Hz). intros q idq Hq Eq. apply (Hl (S q) idq); [lia|exact Eq].
Qed.

(** an array that is not written to [z], or is written over later, does not matter *)
Lemma writes_agree : forall idxs ins ins' y z, length ins = length ins' ->
  (forall q idq, nth_error idxs q = Some idq -> In z idq ->
     nth_error ins q = nth_error ins' q \/
     exists r idr, (q < r)%nat /\ (r < length ins)%nat /\ nth_error idxs r = Some idr /\ In z idr) ->
  forall y', (y z = y' z \/ exists q idq, (q < length ins)%nat /\ nth_error idxs q = Some idq /\ In z idq) ->
  writes y idxs ins z = writes y' idxs ins' z.
Proof.
  induction idxs as [|i0 idxs IH]; intros ins ins' y z Hlen H y' Hy.
  - cbn [writes]. destruct Hy as [E|(q & idq & _ & E & _)]; [exact E|destruct q; discriminate].
  - destruct ins as [|x ins]; destruct ins' as [|x' ins']; try discriminate.
    + cbn [writes]. destruct Hy as [E|(q & idq & Hq & _)]; [exact E|cbn in Hq; lia].
    + cbn [writes]. injection Hlen as Hlen. apply (IH ins ins' _ z Hlen).
      * intros q idq Hq Hz. destruct (H (S q) idq Hq Hz) as [E|(r & idr & H1 & H2 & H3 & H4)]; [left; exact E|].
        right. destruct r as [|r]; [lia|]. exists r, idr. cbn [length] in H2. splits; [lia|lia|exact H3|exact H4].
      * unfold write. destruct (mem z i0) eqn:Em.
        -- destruct (H 0%nat i0 eq_refl (proj1 (mem_In z i0) Em)) as [E|(r & idr & H1 & H2 & H3 & H4)].
           ++ cbn in E. injection E as <-. now left.
           ++ right. destruct r as [|r]; [lia|]. exists r, idr. cbn [length] in H2. splits; [lia|exact H3|exact H4].
        -- destruct Hy as [E|(q & idq & Hq & Eq & Hz)]; [now left|].
           destruct q as [|q].
           ++ cbn in Eq. injection Eq as <-. apply mem_In in Hz. congruence.
           ++ right. exists q, idq. cbn [length] in Hq. splits; [lia|exact Eq|exact Hz].
Qed.

Lemma inputs_length : forall ss v, length (inputs_of ss v) = length ss.
Proof. intros. unfold inputs_of. now rewrite map_length, seq_length. Qed.

(** another value of one expression that is not seen at [z] *)
Lemma writes_unseen : forall idxs ss y v p idx x z, length ss = length idxs -> nth_error idxs p = Some idx ->
  (In z idx -> exists q idq, (p < q)%nat /\ nth_error idxs q = Some idq /\ In z idq) ->
  writes y idxs (inputs_of ss (set_op v p x)) z = writes y idxs (inputs_of ss v) z.
Proof.
  intros idxs ss y v p idx x z Hl Hp Hz. apply writes_agree; [now rewrite !inputs_length| |now left].
  intros q idq Hq Hzq.
  assert (Hql : (q < length ss)%nat) by (rewrite Hl; apply nth_error_Some; congruence).
  destruct (Nat.eq_dec q p) as [->|Hne].
  - right. rewrite Hp in Hq. injection Hq as <-. destruct (Hz Hzq) as (r & idr & H1 & H2 & H3). exists r, idr.
    splits; try assumption. rewrite inputs_length, Hl. apply nth_error_Some. congruence.
  - left. rewrite !inputs_nth_error by assumption. now rewrite set_op_other.
Qed.

Definition ones (idx : list nat) : coo := Coo (length idx) (fun k => nth k idx 0%nat) (fun k => k) (fun _ => 1%R).

Lemma ones_entry : forall idx k, (k < length idx)%nat -> coo_entry (ones idx) (nth k idx 0%nat) k = 1%R.
Proof.
  intros idx k Hk. unfold coo_entry, ones. cbn [nnz rows cols vals]. rewrite (rsum_single _ _ k).
  - now rewrite !Nat.eqb_refl.
  - exact Hk.
  - intros k' Hk' Hne. apply Nat.eqb_neq in Hne. now rewrite Hne, andb_false_r.
Qed.

(** the declared derivatives are right exactly when nothing is written over *)
Lemma writes_jacobian_iff : forall nout idxs ss y0 v p idx, NoDup idx ->
  length ss = length idxs -> nth_error idxs p = Some idx -> (forall z, In z idx -> (z < nout)%nat) ->
  (exact_sparse nout (length idx) (fun x => writes y0 idxs (inputs_of ss (set_op v p x))) (v p) (ones idx) <->
   forall z q idq, In z idx -> (p < q)%nat -> nth_error idxs q = Some idq -> ~ In z idq).
Proof.
  intros nout idxs ss y0 v p idx NDi Hl Hp Hlt.
  assert (Hpl : (p < length ss)%nat) by (rewrite Hl; apply nth_error_Some; congruence).
  split.
  - intros (_ & J) z q idq Hz Hq Eq Hzq.
    pose proof (find_pos_lt idx z Hz) as Hk. set (k := find_pos idx z) in *.
    assert (Ez : nth k idx 0%nat = z) by (now apply nth_find_pos).
    specialize (J z k (Hlt z Hz) Hk). pose proof (ones_entry idx k Hk) as E1. rewrite Ez in E1. rewrite E1 in J.
    unfold partial_at in J.
    assert (C : derivable_pt_lim (fun t => writes y0 idxs (inputs_of ss (set_op v p (upd (v p) k t))) z) (v p k) 0%R).
    { apply (derivable_pt_lim_ext (fun _ => writes y0 idxs (inputs_of ss v) z)).
      - intros t. symmetry. apply (writes_unseen idxs ss y0 v p idx _ z Hl Hp). intros _. exists q, idq. auto.
      - apply derivable_pt_lim_const. }
    pose proof (uniqueness_limite _ _ _ _ J C). lra.
  - intros Hov. split.
    + split; cbn [ones nnz rows cols].
      * intros k Hk. split; [|assumption]. apply Hlt. now apply nth_In.
      * intros k k' _ _ _ E. exact E.
    + apply coo_affine_jacobian with
        (b := fun z => if mem z idx then 0%R else writes y0 idxs (inputs_of ss v) z); cbn [ones nnz rows cols vals].
      * auto.
      * intros x' z Hz. destruct (mem z idx) eqn:Em.
        -- apply mem_In in Em.
           rewrite (writes_last idxs _ y0 p idx (Nd (nth p ss []) x') z Hp);
             [|now rewrite inputs_nth_error, set_op_same|assumption|intros q idq Hq Eq; exact (Hov z q idq Em Hq Eq)].
           cbn [dat]. rewrite (rsum_single _ _ (find_pos idx z)).
           ++ rewrite nth_find_pos by assumption. rewrite Nat.eqb_refl. lra.
           ++ now apply find_pos_lt.
           ++ intros k Hk Hne. destruct (Nat.eqb_spec (nth k idx 0%nat) z) as [E|]; [|reflexivity].
              exfalso. apply Hne. rewrite <- E. symmetry. now apply find_pos_nth.
        -- apply mem_not_In in Em. rewrite rsum_zero.
           2: { intros k Hk. destruct (Nat.eqb_spec (nth k idx 0%nat) z) as [E|]; [|reflexivity].
                exfalso. apply Em. rewrite <- E. now apply nth_In. }
           rewrite Rplus_0_r. apply (writes_unseen idxs ss y0 v p idx _ z Hl Hp). intros Hz'. contradiction.
Qed.

Lemma kept_component : forall s l o y0, kept s l o -> l <> [] ->
  exists c F, assembled s y0 (ov_tgts o) = Some c /\ c_ins c = map as_shape l /\ c_out c = s /\
    (forall v, c_compute c (inputs_of (c_ins c) v) = Some (Nd s (F v)) /\
       last_wins s y0 l (inputs_of (c_ins c) v) (Nd s (F v))) /\
    (forall v p a, nth_error l p = Some a -> exists j, c_partials c (inputs_of (c_ins c) v) p = Some j /\
       (exact_jac (size s) (size (as_shape a)) (fun x => F (set_op v p x)) (v p) j <->
        forall z, names_position s (as_key a) z -> last_at s l p z)).
Proof.
  intros s l o y0 (Hs & Hrep) Hl.
  set (ts := ov_tgts o) in *. unfold assembled.
  assert (Hall : forallb (fun t => forallb (fun z => (0 <=? z) && (z <? Z.of_nat (size s))) (tg_idx t)) ts = true).
  { apply forallb_forall. intros t Ht. apply forallb_forall. intros z Hz.
    assert (Hin : In z (flat_map tg_idx ts)) by (apply in_flat_map; exists t; auto).
    destruct (stored_nonneg s l ts z Hrep Hin) as [H1 H2].
    apply andb_true_iff. split; [apply Z.leb_le|apply Z.ltb_lt]; lia. }
  rewrite Hall. set (idxs := map (fun t => map Z.to_nat (tg_idx t)) ts).
  assert (Hsh : map tg_shape ts = map as_shape l).
  { clear - Hrep. induction Hrep as [|a t l ts Hr H IH]; [reflexivity|]. cbn. rewrite IH.
    destruct Hr as (ls & _ & _ & _ & _ & -> & _). reflexivity. }
  assert (Hlen : length idxs = length ts) by (unfold idxs; apply map_length).
  assert (Hlt : length l = length ts) by exact (Forall2_len _ _ _ _ _ Hrep).
  assert (Hne : s <> []).
  { destruct Hrep as [|a t l' ts' Hr H]; [congruence|]. destruct Hr as (ls & Hne & _). exact Hne. }
  assert (Hidx : forall p a, nth_error l p = Some a ->
    exists ls, in_range s ls = true /\ index_positions s (map as_slice (key_entries (as_key a))) = Some ls /\
      as_shape a = map (@length nat) ls /\ nth_error idxs p = Some (flat s ls)).
  { intros p a Ha. destruct (Forall2_nth _ _ _ _ _ _ _ Hrep Ha) as (t & Ht & ls & _ & Hi & Hx & _ & _ & Hsa & Hti).
    exists ls. splits; auto. unfold idxs. rewrite nth_error_map, Ht. cbn [option_map]. now rewrite Hti, to_of_nat. }
  assert (Hback : forall q idq z, nth_error idxs q = Some idq -> exists a, nth_error l q = Some a /\
    (In z idq <-> names_position s (as_key a) z)).
  { intros q idq z Hq. destruct (nth_error l q) as [a|] eqn:Ea.
    - exists a. split; [reflexivity|]. destruct (Hidx q a Ea) as (ls & _ & Hx & _ & E). rewrite Hq in E. injection E as ->.
      now apply flat_names.
    - apply nth_error_None in Ea. assert (q < length idxs)%nat by (apply nth_error_Some; congruence). lia. }
  assert (Hsz : forall v, Forall2 (fun idx x => size (shp x) = length idx) idxs (inputs_of (map tg_shape ts) v)).
  { intros v. unfold inputs_of. rewrite map_length, Hsh.
    assert (G : forall l0 ts0 l1, l = l1 ++ l0 -> Forall2 (rep s) l0 ts0 ->
       Forall2 (fun idx x => size (shp x) = length idx) (map (fun t => map Z.to_nat (tg_idx t)) ts0)
         (map (fun p => Nd (nth p (map as_shape l) []) (v p)) (seq (length l1) (length ts0)))).
    { intros l0 ts0 l1 El H. revert l1 El. induction H as [|a t l0 ts0 Hr H IH]; intros l1 El; [constructor|].
      cbn [length seq map]. constructor.
      - cbn [shp]. destruct Hr as (ls & _ & _ & _ & _ & _ & Hsa & Hti). rewrite Hti, to_of_nat.
        unfold flat. rewrite map_length, seq_length, <- Hsa. f_equal. rewrite El, map_app, app_nth2; rewrite map_length; [|lia].
        now rewrite Nat.sub_diag.
      - specialize (IH (l1 ++ [a])). rewrite app_length in IH. cbn [length] in IH.
        rewrite Nat.add_1_r in IH. apply IH. rewrite <- app_assoc. exact El. }
    exact (G l ts [] eq_refl Hrep). }
  eexists. exists (fun v => writes y0 idxs (inputs_of (map tg_shape ts) v)).
  splits; try reflexivity; [exact Hsh| |].
  - intros v. cbn [c_ins c_compute c_out].
    replace (Nat.eqb (length s) 0) with false by (destruct s; [congruence|reflexivity]).
    rewrite (write_all_writes _ _ _ (Hsz v)). split; [reflexivity|].
    set (y := writes y0 idxs (inputs_of (map tg_shape ts) v)).
    split; [reflexivity|]. split.
    + intros p a ls idx Ha Hx Hb Hlast.
      destruct (Hidx p a Ha) as (ls' & Hi & Hx' & Hsa & Hp). rewrite Hx in Hx'. injection Hx' as <-.
      assert (Hpl : (p < length (map tg_shape ts))%nat).
      { rewrite map_length, <- Hlt. apply nth_error_Some. congruence. }
      assert (Enth : nth p (map tg_shape ts) [] = map (@length nat) ls).
      { rewrite Hsh, <- Hsa. apply nth_error_nth. rewrite nth_error_map, Ha. reflexivity. }
      exists (Nd (map (@length nat) ls) (v p)). split; [rewrite inputs_nth_error by assumption; now rewrite Enth|].
      unfold get. cbn [shp dat].
      assert (Hj : (ravel (map (@length nat) ls) idx < size (map (@length nat) ls))%nat) by (now apply ravel_lt).
      assert (Hfl : nth (ravel (map (@length nat) ls) idx) (flat s ls) 0%nat = ravel s (pick ls idx)).
      { unfold flat. rewrite nth_indep with (d' := (fun j => ravel s (pick ls (unravel (map (@length nat) ls) j))) 0%nat)
          by (rewrite map_length, seq_length; assumption).
        rewrite (map_nth (fun j => ravel s (pick ls (unravel (map (@length nat) ls) j)))), seq_nth by assumption.
        cbn [plus]. now rewrite unravel_ravel. }
      assert (Hin : In (ravel s (pick ls idx)) (flat s ls)) by (apply flat_In; exists idx; auto).
      unfold y. rewrite (writes_last idxs _ y0 p (flat s ls) (Nd (map (@length nat) ls) (v p)) _ Hp);
        [|rewrite inputs_nth_error by assumption; now rewrite Enth|assumption|].
      * cbn [dat]. f_equal. rewrite <- Hfl. apply find_pos_nth; [exact (flat_NoDup s (as_key a) ls Hi Hx)|].
        unfold flat. now rewrite map_length, seq_length.
      * intros q idq Hq Eq Hz. destruct (Hback q idq (ravel s (pick ls idx)) Eq) as (b & Hb' & Hn).
        apply (Hlast q b Hq Hb'). now apply Hn.
    + intros z Hz Hn. cbn [dat]. unfold y. apply writes_out. intros Hin.
      destruct (concat_In_nth _ _ Hin) as (q & idq & Eq & Hzq). destruct (Hback q idq z Eq) as (b & Hb' & Hnb).
      apply (Hn b (nth_error_In _ _ Hb')). now apply Hnb.
  - intros v p a Ha. cbn [c_ins c_out c_partials].
    destruct (Hidx p a Ha) as (ls & Hi & Hx & Hsa & Hpi).
    rewrite Hpi. rewrite (sparse_partials_scalar (length (flat s ls))) by reflexivity.
    cbn [as_sparse option_map]. eexists. split; [reflexivity|]. cbn [exact_jac dat np_arange].
    assert (Esz : size (as_shape a) = length (flat s ls)).
    { rewrite Hsa. unfold flat. now rewrite map_length, seq_length. }
    rewrite Esz. fold (ones (flat s ls)).
    rewrite (writes_jacobian_iff (size s) idxs (map tg_shape ts) y0 v p (flat s ls)).
    + split.
      * intros H z Hz q b Hq Hb Hnb. destruct (Hidx q b Hb) as (lq & _ & Hxq & _ & Eq).
        apply (H z q (flat s lq)); try assumption; [now apply (flat_names s (as_key a) ls z Hx)|now apply (flat_names s (as_key b) lq z Hxq)].
      * intros H z q idq Hz Hq Eq Hzq. destruct (Hback q idq z Eq) as (b & Hb & Hn).
        apply (H z (proj1 (flat_names s (as_key a) ls z Hx) Hz) q b Hq Hb). now apply Hn.
    + exact (flat_NoDup s (as_key a) ls Hi Hx).
    + rewrite map_length. now symmetry.
    + exact Hpi.
    + intros z Hz. exact (flat_lt _ _ _ Hi Hz).
Qed.

Lemma done_recorded : forall hs rs, length hs = length rs -> In Done rs -> recorded hs rs <> [].
Proof.
  induction hs as [|a hs IH]; intros [|r rs] E H; try discriminate; [destruct H|].
  cbn [recorded]. destruct r; try discriminate. destruct H as [H|H]; [discriminate|]. apply IH; [now injection E|exact H].
Qed.

Lemma setitems_length : forall hs o o' rs, setitems o hs = (o', rs) -> length hs = length rs.
Proof.
  induction hs as [|a hs IH]; intros o o' rs H; cbn [setitems] in H; [now injection H as <- <-|].
  destruct (setitem o (as_key a) (as_name a) (as_shape a)) as [o1 r].
  destruct (setitems o1 hs) as [o2 rs'] eqn:E. injection H as <- <-. cbn. now rewrite (IH _ _ _ E).
Qed.

(** C23 *)
Lemma assign_overlaps : forall s hs o rs y0, Forall (fun a => fitting s (as_key a)) hs ->
  setitems (fresh_out s) hs = (o, rs) ->
  (ov_built o = true <-> In Done rs) /\
  (In Done rs -> exists c F, assembled s y0 (ov_tgts o) = Some c /\
    c_ins c = map as_shape (recorded hs rs) /\ c_out c = s /\
    (forall v, c_compute c (inputs_of (c_ins c) v) = Some (Nd s (F v)) /\
       last_wins s y0 (recorded hs rs) (inputs_of (c_ins c) v) (Nd s (F v))) /\
    (forall v p a, nth_error (recorded hs rs) p = Some a -> exists j, c_partials c (inputs_of (c_ins c) v) p = Some j /\
       (exact_jac (size s) (size (as_shape a)) (fun x => F (set_op v p x)) (v p) j <->
        forall z, names_position s (as_key a) z -> last_at s (recorded hs rs) p z))).
Proof.
  intros s hs o rs y0 Hf H. split.
  - rewrite (built_steps _ _ _ _ H). cbn [fresh_out ov_built]. split; [intros [E|E]; [discriminate|exact E]|now right].
  - intros Hd. apply kept_component.
    + apply (kept_steps hs s [] (fresh_out s) o rs); try assumption. split; [reflexivity|constructor].
    + apply done_recorded; [exact (setitems_length _ _ _ _ H)|exact Hd].
Qed.

(** out of shape (4,): out[0:2] = x; out[1:3] = y is reported; out[3:4] = z; then
    the derivatives with respect to x are wrong and the other two right *)
Example assign_overlaps_case :
  let hs := [Assign (sl 0 2) 0 [2]; Assign (sl 1 3) 1 [2]; Assign (sl 3 4) 2 [1]]%nat in
  exists o, setitems (fresh_out [4%nat]) hs = (o, [Done; Overlap; Done]) /\
    Forall (fun a => fitting [4%nat] (as_key a)) hs /\ recorded hs [Done; Overlap; Done] = hs /\
    ~ last_at [4%nat] hs 0 1 /\ names_position [4%nat] (sl 0 2) 1.
Proof.
  cbv zeta. eexists. splits.
  - vm_compute. reflexivity.
  - repeat constructor.
  - reflexivity.
  - intros H. apply (H 1%nat (Assign (sl 1 3) 1 [2%nat])); [lia|reflexivity|].
    exists [[1; 2]]%nat, [0]%nat. splits; try reflexivity. cbn. lia.
  - exists [[0; 1]]%nat, [1]%nat. splits; try reflexivity. cbn. lia.
Qed.
