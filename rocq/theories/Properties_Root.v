(** C97 - C98.  Specification: SpecImplicit.v, SpecRoot.v, SpecDeriv.v, SpecTotals.v.
    Concrete cases: implicit_case in RootProofs.v, totals_case and residual_case in
    TotalsProofs.v. *)
From Coq Require Import Reals Arith List Bool.
From Verif Require Import PyBase PySet SpecGraph Graph SpecSetup GroupApi SpecApi Run SpecRun.
From Verif Require Import RSum NdArray Component Implicit SpecImplicit SpecRoot SpecDeriv SpecTotals RootProofs TotalsProofs.
Import ListNotations.
Local Open Scope R_scope.

Theorem C97_bracketed : forall O fuel h G xs r c vs k out b1 b2 o s v x1 x2 F outputs f y t0 P J,
  run_iops O fuel igroup0 h = Some (G, xs) ->
  build_problem O fuel G = Some (Ok ([r], c, vs)) ->
  succeeded h xs k (DefineBracketed out r b1 b2) ->
  In (o, (s, v)) (ic_outs c) -> stands_for b1 s x1 -> stands_for b2 s x2 ->
  near t0 (fun t => elementwise (F t) outputs o (aname (ig_api G) r) s (f t)
    /\ forall j, (j < size s)%nat -> (forall z, between (x1 j) (x2 j) z -> continuity_pt (f t j) z)
         /\ f t j (x1 j) * f t j (x2 j) <= 0 /\ only_root (f t j) (x1 j) (x2 j) (y t j)) ->
  (forall j, (j < size s)%nat -> y t0 j <> x1 j /\ y t0 j <> x2 j) ->
  residual_rates F outputs o (aname (ig_api G) r) s (y t0) t0 P J ->
  (forall j, (j < size s)%nat -> J j j <> 0) ->
  (forall m, near t0 (fun t => exists outputs', solve_nonlinear m G [r] (F t) outputs = Ok outputs'
     /\ shp (outputs' o) = s
     /\ forall j, (j < size s)%nat -> Rabs (dat (outputs' o) j - y t j) <= Rabs (x2 j - x1 j) / 2 ^ 101))
  /\ (forall d e, shp (d o) = s -> (forall j, dat (d o) j = 0) -> (forall j, (j < size s)%nat -> dat (e o) j = - P j) ->
       let d' := fst (solve_linear Fwd (ig_map G) (fun _ => derivs s J) (d, e)) in
       shp (d' o) = s /\ forall j, (j < size s)%nat -> derivable_pt_lim (fun t => y t j) t0 (dat (d' o) j))
  /\ (forall d e, shp (e o) = s -> (forall j, dat (e o) j = 0) ->
       let e' := snd (solve_linear Rev (ig_map G) (fun _ => derivs s J) (d, e)) in
       shp (e' o) = s /\ derivable_pt_lim (fun t => rsum (size s) (fun j => dat (d o) j * y t j)) t0
         (rsum (size s) (fun j => dat (e' o) j * - P j))).
Proof. exact implicit_derivative. Qed.
Print Assumptions C97_bracketed.

Theorem C97_several : forall (m : list (name * name)) (J : system) sh (d r : name -> nd R)
    (f : name -> nat -> R -> R -> R) (y : name -> nat -> R -> R) (x1 x2 P : name -> nat -> R) t0,
  NoDup (map snd m) -> regular J (map snd m) sh -> zeroed d (map snd m) sh ->
  (forall o i, In o (map snd m) -> (i < size (sh o))%nat ->
     near t0 (fun t => (forall z, between (x1 o i) (x2 o i) z -> continuity_pt (f o i t) z)
                       /\ only_root (f o i t) (x1 o i) (x2 o i) (y o i t))
     /\ y o i t0 <> x1 o i /\ y o i t0 <> x2 o i
     /\ line_rates (f o i) t0 (y o i t0) (P o i) (J o o i i)
     /\ dat (r o) i = - P o i) ->
  let d' := fst (solve_linear Fwd m (fun o => derivs (sh o) (J o o)) (d, r)) in
  forall o i, In o (map snd m) -> (i < size (sh o))%nat -> derivable_pt_lim (y o i) t0 (dat (d' o) i).
Proof. exact solution_rates. Qed.
Print Assumptions C97_several.

Theorem C98_matrices :
  forall table asm part subs sub_reads sub_writes shape_of O uid reverse fuel h st rs,
  run_ops O fuel api0 h = Some (st, rs) ->
  throughout O no_self_reference fuel api0 h ->
  all_tidy st -> uid_distinct root uid (adeps st) ->
  (forall out, created_output h rs out -> exists i, given_value h rs i out) ->
  labels_distinct st -> SpecRun.names_ok sub_reads sub_writes st ->
  (forall k, length (subs k) = length (sub_writes k)) ->
  sizes_agree table asm part subs sub_reads sub_writes shape_of st ->
  exists added, eventually (fun f => group_setup O set_list uid f reverse st) (Ok added)
    /\ (forall s ind vs ns,
          exists tot itot, columns table asm part subs sub_reads sub_writes shape_of st
            (pass table asm part subs sub_reads sub_writes st added ind s) vs ns tot itot)
    /\ forall s ind t0 ds dind vs ns tot itot,
       let fin t := pass table asm part subs sub_reads sub_writes st added (ind t) (s t) in
       given_rates sub_writes shape_of st s ind t0 ds dind ->
       chained table asm part subs sub_reads shape_of st (fin t0) ->
       NoDup vs -> NoDup ns -> (forall v, In v vs -> ~ written sub_writes st v) ->
       moves_only vs ns ds dind ->
       columns table asm part subs sub_reads sub_writes shape_of st (fin t0) vs ns tot itot ->
       forall x i, (i < size (shape_of x))%nat ->
         derivable_pt_lim (fun t => fin t x i) t0 (times_rates shape_of st vs ns tot itot ds dind x i).
Proof. exact model_totals. Qed.
Print Assumptions C98_matrices.

Theorem C98_residual :
  forall table asm part subs sub_reads sub_writes shape_of O uid reverse fuel h st rs,
  run_ops O fuel api0 h = Some (st, rs) ->
  throughout O no_self_reference fuel api0 h ->
  all_tidy st -> uid_distinct root uid (adeps st) ->
  (forall out, created_output h rs out -> exists i, given_value h rs i out) ->
  labels_distinct st -> SpecRun.names_ok sub_reads sub_writes st ->
  (forall k, length (subs k) = length (sub_writes k)) ->
  sizes_agree table asm part subs sub_reads sub_writes shape_of st ->
  exists added, eventually (fun f => group_setup O set_list uid f reverse st) (Ok added)
    /\ (forall s ind vs ns,
          exists tot itot, columns table asm part subs sub_reads sub_writes shape_of st
            (pass table asm part subs sub_reads sub_writes st added ind s) vs ns tot itot)
    /\ forall s ind t0 ds dind vs ns tot itot o rn y0 outputs,
       let pass := pass table asm part subs sub_reads sub_writes st added in
       let F t (env : name -> nd R) n := Nd (shape_of n) (pass (ind t) (with_output (s t) o (dat (env o))) n) in
       let fin := pass (ind t0) (with_output (s t0) o y0) in
       given_rates sub_writes shape_of st s ind t0 ds dind ->
       chained table asm part subs sub_reads shape_of st fin ->
       NoDup (o :: vs) -> NoDup ns -> (forall v, In v (o :: vs) -> ~ written sub_writes st v) ->
       moves_only (o :: vs) ns ds dind ->
       columns table asm part subs sub_reads sub_writes shape_of st fin (o :: vs) ns tot itot ->
       shape_of rn = shape_of o ->
       residual_rates F outputs o rn (shape_of o) y0 t0
         (times_rates shape_of st vs ns tot itot ds dind rn) (fun i j => tot o j rn i).
Proof. exact model_residual. Qed.
Print Assumptions C98_residual.
