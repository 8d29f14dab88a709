(** Model of implicit outputs and implicit components
    (omtools/core/implicit_output.py L43-161, omtools/comps/implicit_component.py,
    omtools/utils/collect_input_exprs.py), on top of the Group API of GroupApi.v.

    Simplifications: values are arrays of exact reals (no NaN, so one of the two
    masks of a comparison always holds); the internal Problem is represented by
    the function it computes (the residuals, from the values of the implicit
    outputs, the other inputs being fixed during a solve); the shape and val
    attributes of objects made by the other Group calls are given by the caller
    of [istep]; OpenMDAO's design-variable and constraint bookkeeping
    (implicit_component.py L87-100), the n2 option and create_group are left out. *)
From Coq Require Import Reals.
From Verif Require Import PyBase Graph Replace GroupApi RSum NdArray CompElem.
Import ListNotations.

(** Python dicts keyed by names, in insertion order. *)
Section Dict.
Context {A : Type}.
Fixpoint dict_get (k : name) (m : list (name * A)) : option A :=
  match m with
  | [] => None
  | (k', v) :: r => if name_eqb k' k then Some v else dict_get k r
  end.
Fixpoint dict_set (k : name) (v : A) (m : list (name * A)) : list (name * A) :=
  match m with
  | [] => [(k, v)]
  | (k', v') :: r => if name_eqb k' k then (k', v) :: r else (k', v') :: dict_set k v r
  end.
End Dict.

(** The Group inside an ImplicitComponent: the part of GroupApi.v and the
    attributes only implicit outputs use (group.py L160-162, variable.py L140). *)
Record igroup := IG {
  ig_api : api;
  ig_shape : nat -> list nat;                   (* Variable.shape *)
  ig_val : nat -> nd R;                         (* Variable.val *)
  ig_isres : nat -> bool;                       (* Variable.is_residual *)
  ig_map : list (name * name);                  (* Group.res_out_map *)
  ig_brackets : option (list (name * nd R) * list (name * nd R));  (* Group.brackets_map *)
  ig_outvals : list (name * nd R)               (* Group.out_vals *)
}.

Definition igroup0 : igroup :=
  IG api0 (fun _ => [1]) (fun _ => Nd [1] (fun _ => 1%R)) (fun _ => false) [] None [].

(** The user's calls in ImplicitComponent.setup: any call of GroupApi.v (with the
    shape and val attributes the object it makes ends up with), and the calls
    about implicit outputs.  A bracket is a number (shape []), a list or an array. *)
Inductive iop :=
| Plain (o : op) (s : list nat) (v : nd R)
| CreateImplicit (nm : nat) (s : list nat) (v : nd R)
| DefineResidual (out r : nat)
| DefineBracketed (out r : nat) (x1 x2 : nd R).

Section Group.
Variable O : oracle.

(** group.register_output(residual_expr.name, residual_expr): group.py L316-347
    with the name the expression already has. *)
Definition register_residual (st : api) (r : nat) : api * res nat :=
  match akind st r with
  | KInput => (st, Raise TypeError)
  | _ => if mem r (adeps st root) then (st, Raise ValueError)
         else (add_dep O st root r, Ok r)
  end.

(** implicit_output.py L84-107 and L130-153 (the two methods start alike): the
    group with the residual registered, or the exception. *)
Definition start_residual (fuel : nat) (G : igroup) (out r : nat) : option (igroup * res nat) :=
  let st := ig_api G in
  if visible st out && visible st r &&
     match akind st out with KImplicit => true | _ => false end then
    if Nat.eqb r out then Some (G, Raise ValueError)                    (* L84-86, L130-132 *)
    else if adefined st out then Some (G, Raise ValueError)             (* L87-89, L133-135 *)
    else
      let isres := upd (ig_isres G) r true in                           (* L93, L139 *)
      let leaf := anext st in
      let st1 := new_obj st KInput (aname st out) NoBuild in            (* L100, L146 *)
      match residual_graph O fuel out r leaf (adeps st) (atick st) with (* L97-101, L143-147 *)
      | None => None
      | Some d =>
        let (st2, x) := register_residual (set_adeps st1 d (S (atick st))) r in  (* L104-107 *)
        Some (IG st2 (upd (ig_shape G) leaf (ig_shape G out))
                 (upd (ig_val G) leaf (ig_val G out)) isres (ig_map G) (ig_brackets G)
                 (ig_outvals G), x)
      end
  else Some (G, Raise NameError).

Definition istep (fuel : nat) (G : igroup) (o : iop) : option (igroup * res nat) :=
  let st := ig_api G in
  match o with
  | Plain o s v =>
    match step O fuel st o with
    | None => None
    | Some (st', x) =>
      let is_new n := Nat.leb (anext st) n && Nat.ltb n (anext st') in
      Some (IG st' (fun n => if is_new n then s else ig_shape G n)
               (fun n => if is_new n then v else ig_val G n)
               (ig_isres G) (ig_map G) (ig_brackets G) (ig_outvals G), x)
    end
  | CreateImplicit nm s v =>                                  (* group.py L285-314 *)
    Some (IG (new_obj st KImplicit (User nm) NoBuild) (upd (ig_shape G) (anext st) s)
             (upd (ig_val G) (anext st) v) (ig_isres G) (ig_map G) (ig_brackets G)
             (ig_outvals G), Ok (anext st))
  | DefineResidual out r =>                                   (* implicit_output.py L71-113 *)
    match start_residual fuel G out r with
    | Some (G1, Ok _) =>
      let nm := aname (ig_api G1) in
      Some (IG (set_defined (ig_api G1) out false) (ig_shape G1) (ig_val G1) (ig_isres G1)
               (dict_set (nm r) (nm out) (ig_map G1))                    (* L110 *)
               (ig_brackets G1)
               (dict_set (nm out) (ig_val G1 out) (ig_outvals G1)),      (* L111 *)
            Ok out)
    | x => x
    end
  | DefineBracketed out r x1 x2 =>                            (* implicit_output.py L115-161 *)
    match start_residual fuel G out r with
    | Some (G1, Ok _) =>
      let nm := aname (ig_api G1) in
      Some (IG (set_defined (ig_api G1) out false) (ig_shape G1) (ig_val G1) (ig_isres G1)
               (dict_set (nm r) (nm out) (ig_map G1))                    (* L156 *)
               (Some ([(nm out, x1)], [(nm out, x2)]))                   (* L157-159 *)
               (ig_outvals G1),
            Ok out)
    | x => x
    end
  end.

(** A history of calls; exceptions are caught by the user and the history goes on. *)
Fixpoint run_iops (fuel : nat) (G : igroup) (h : list iop) : option (igroup * list (res nat)) :=
  match h with
  | [] => Some (G, [])
  | o :: h' => match istep fuel G o with
               | Some (G', x) => match run_iops fuel G' h' with
                                 | Some (G'', xs) => Some (G'', x :: xs)
                                 | None => None
                                 end
               | None => None
               end
  end.

(** collect_input_exprs.py L16-21: the loop; [rec] is the recursive call. *)
Fixpoint collect_loop (rec : nat -> list nat -> option (list nat)) (st : api) (rt : nat)
         (ds : list nat) (acc : list nat) : option (list nat) :=
  match ds with
  | [] => Some acc
  | x :: r =>
    if name_eqb (aname st x) (aname st rt) then collect_loop rec st rt r acc    (* L17 *)
    else
      let acc := if match akind st x with KInput => true | _ => false end
                    && Nat.eqb (length (adeps st x)) 0                          (* L18-20 *)
                 then acc ++ [x] else acc in
      match rec x acc with                                                      (* L21 *)
      | Some acc' => collect_loop rec st rt r acc'
      | None => None
      end
  end.

(** collect_input_exprs.py L7-22. *)
Fixpoint collect_input_exprs (fuel : nat) (st : api) (rt expr : nat) (acc : list nat)
  : option (list nat) :=
  match fuel with
  | 0 => None
  | S f => collect_loop (collect_input_exprs f st rt) st rt (adeps st expr) acc
  end.

(** implicit_component.py L18-33: the new dependencies of the root. *)
Definition remove_nonresiduals (isres : nat -> bool) (l : list nat) : list nat :=
  fold_left (fun l x => remove_first x l) (filter (fun x => negb (isres x)) l) l.

(** What _build_problem does to the component: all_inputs, the variables added
    with add_input / add_output (value given), the declared partials. *)
Record icomp := IC {
  ic_all : list (name * list nat);
  ic_ins : list name;
  ic_outs : list (name * (list nat * nd R));
  ic_partials : list (name * name)
}.

Definition icomp0 := IC [] [] [] [].

(** OpenMDAO refuses a second variable of the same name (ValueError). *)
Definition has_var (c : icomp) (n : name) : bool :=
  existsb (fun m => name_eqb m n) (ic_ins c ++ map fst (ic_outs c)).

(** implicit_component.py L69-79. *)
Fixpoint add_inputs (st : api) (out : name) (xs : list nat) (c : icomp) : res icomp :=
  match xs with
  | [] => Ok c
  | x :: r =>
    if name_eqb (aname st x) out then add_inputs st out r c                     (* L70 *)
    else if has_var c (aname st x) then Raise ValueError                        (* L71-75 *)
    else add_inputs st out r (IC (ic_all c) (ic_ins c ++ [aname st x]) (ic_outs c)
                                 (ic_partials c ++ [(out, aname st x)]))        (* L76-79 *)
  end.

(** The expressions the loops of implicit_component.py look at (L49, L105, L166, L204). *)
Definition is_resroot (st : api) (r : nat) : bool :=
  match akind st r with KSubsystem | KExplicit => false | _ => true end.

(** implicit_component.py L48-85, over the root's dependencies [rs]. *)
Fixpoint declare_residuals (fuel : nat) (G : igroup) (rs : list nat) (t : nat) (c : icomp)
  : option (res icomp) :=
  let st := ig_api G in
  match rs with
  | [] => Some (Ok c)
  | r :: rs' =>
    if is_resroot st r then
      match collect_input_exprs fuel st r r [] with                             (* L52 *)
      | None => None
      | Some l =>
        match dict_get (aname st r) (ig_map G) with                             (* L54 *)
        | None => Some (Raise KeyError)
        | Some out =>
          if has_var c out then Some (Raise ValueError)                         (* L62-66 *)
          else
            let ins := O t l in
            let c1 := IC (dict_set out ins (ic_all c)) (ic_ins c)               (* L57 *)
                         (ic_outs c ++ [(out, (ig_shape G r, ig_val G r))]) (ic_partials c) in
            match add_inputs st out ins c1 with                                 (* L69-79 *)
            | Raise e => Some (Raise e)
            | Ok c2 => declare_residuals fuel G rs' (S t)
                         (IC (ic_all c2) (ic_ins c2) (ic_outs c2)
                             (ic_partials c2 ++ [(out, out)]))                  (* L82-85 *)
            end
        end
      end
    else declare_residuals fuel G rs' t c
  end.

(** implicit_component.py L104-111: the initial value of every implicit output in
    the internal problem; KeyError when out_vals has others but not this one.
    Left out: L112-113, which then set the internal problem's inputs to the values
    they were declared with (solve_nonlinear replaces them before every solve). *)
Fixpoint initial_values (G : igroup) (rs : list nat) : res (list (name * nd R)) :=
  match rs with
  | [] => Ok []
  | r :: rs' =>
    if is_resroot (ig_api G) r then
      match dict_get (aname (ig_api G) r) (ig_map G) with
      | None => Raise KeyError
      | Some out =>
        match (match ig_outvals G with
               | [] => Some (Nd [1] (fun _ => 1%R))
               | vs => dict_get out vs
               end) with
        | None => Raise KeyError
        | Some v => do l <- initial_values G rs' ;; Ok ((out, v) :: l)
        end
      end
    else initial_values G rs'
  end.

(** implicit_component.py L39-113, prob.setup() (GroupApi.group_setup) apart:
    the roots kept, the component, and the values set in the internal problem. *)
Definition build_problem (fuel : nat) (G : igroup)
  : option (res (list nat * icomp * list (name * nd R))) :=
  let rs := remove_nonresiduals (ig_isres G) (adeps (ig_api G) root) in
  match declare_residuals fuel G rs (atick (ig_api G)) icomp0 with
  | None => None
  | Some (Raise e) => Some (Raise e)
  | Some (Ok c) => match initial_values G rs with
                   | Raise e => Some (Raise e)
                   | Ok vs => Some (Ok (rs, c, vs))
                   end
  end.

(** implicit_component.py L249-256: the pairs (of, wrt) that linearize stores. *)
Definition linearize_keys (st : api) (c : icomp) : list (name * name) :=
  flat_map (fun p => map (fun x => (fst p, aname st x)) (snd p) ++ [(fst p, fst p)]) (ic_all c).
End Group.

(** ---- The numerical methods ---- *)
Local Open Scope R_scope.

(** ImplicitComponent.__init__, implicit_component.py L147-162: [maxiter] as given
    by the caller; the attribute the solver reads. *)
Definition component_maxiter (maxiter : nat) : nat := 100.

(** What the internal problem computes: the residual of each residual name from
    the values of the implicit outputs. *)
Definition problem := (name -> nd R) -> name -> nd R.

(** implicit_component.py L182-192: run_model with [out_name] set to [x]; entry
    [out_name] of the dict of residuals is that of the last residual mapped to it. *)
Definition set_out (outputs : name -> nd R) (o : name) (x : nd R) : name -> nd R :=
  fun n => if name_eqb n o then x else outputs n.

Fixpoint residual_name (m : list (name * name)) (o : name) : option name :=
  match m with
  | [] => None
  | (r, o') :: m' => match residual_name m' o with
                     | Some r' => Some r'
                     | None => if name_eqb o' o then Some r else None
                     end
  end.

(** x1 * np.ones(shape), which then has to fit the variable *)
Definition bracket_array (b : nd R) (s : list nat) : option (nd R) :=
  match np_bcast2 Rmult b (Nd s (fun _ => 1)) with
  | Some x => if list_eq_dec Nat.eq_dec (shp x) s then Some x else None
  | None => None
  end.

(** xp[mask] = a[mask]; xp[~mask] = b[~mask] for the mask u >= v *)
Definition mask_ge (u v : nat -> R) (a b : nat -> R) : nat -> R :=
  fun i => if Rle_dec (v i) (u i) then a i else b i.

(** implicit_component.py L226-234: [n] halvings and the final midpoint. *)
Fixpoint bisect (res : nd R -> nd R) (s : list nat) (n : nat) (xp xn : nat -> R) : nat -> R :=
  match n with
  | O => fun i => 0.5 * xp i + 0.5 * xn i
  | S n' =>
    let x := fun i => 0.5 * xp i + 0.5 * xn i in
    let r := dat (res (Nd s x)) in
    bisect res s n' (mask_ge r (fun _ => 0) x xp) (mask_ge r (fun _ => 0) xn x)
  end.

(** implicit_component.py L202-234, for the residuals [rs] still to do. *)
Fixpoint solve_loop (G : igroup) (F : problem) (maxiter : nat) (rs : list nat)
         (outputs : name -> nd R) : res (name -> nd R) :=
  match rs with
  | [] => Ok outputs
  | r :: rs' =>
    if is_resroot (ig_api G) r then
      match dict_get (aname (ig_api G) r) (ig_map G) with                       (* L206 *)
      | None => Raise KeyError
      | Some o =>
        let s := ig_shape G r in                                                (* L207 *)
        match ig_brackets G with
        | None => solve_loop G F maxiter rs' outputs                            (* L209 *)
        | Some (m1, m2) =>
          match dict_get o m1, dict_get o m2 with                               (* L210-211 *)
          | Some b1, Some b2 =>
            match bracket_array b1 s, bracket_array b2 s with
            | Some x1, Some x2 =>
              match residual_name (ig_map G) o with
              | None => Raise KeyError
              | Some rn =>
                let res x := F (set_out outputs o x) rn in                      (* L182-192 *)
                let r1 := dat (res x1) in                                       (* L213-216 *)
                let r2 := dat (res x2) in
                let xp := mask_ge r1 r2 (dat x1) (dat x2) in                    (* L218-220 *)
                let xn := mask_ge r1 r2 (dat x2) (dat x1) in                    (* L222-224 *)
                solve_loop G F maxiter rs'
                  (set_out outputs o (Nd s (bisect res s maxiter xp xn)))       (* L226-234 *)
              end
            | _, _ => Raise ValueError
            end
          | _, _ => Raise KeyError
          end
        end
      end
    else solve_loop G F maxiter rs' outputs
  end.

(** The component made with [maxiter=...], its internal group having roots [rs]. *)
Definition solve_nonlinear (maxiter : nat) (G : igroup) (rs : list nat) (F : problem)
           (outputs : name -> nd R) : res (name -> nd R) :=
  solve_loop G F (component_maxiter maxiter) rs outputs.

(** implicit_component.py L244-259: [derivs] of one output, from the derivative of
    its residual with respect to it (a square matrix in row-major indexing):
    np.diag, then reshape to the residual's shape. *)
Definition derivs (s : list nat) (J : nat -> nat -> R) : nd R := Nd s (fun i => J i i).

(** implicit_component.py L261-268, the statement for one output. *)
Inductive mode := Fwd | Rev.
Definition solve_linear1 (md : mode) (dv : nd R) (o : name)
           (v : (name -> nd R) * (name -> nd R)) : (name -> nd R) * (name -> nd R) :=
  let (d_outputs, d_residuals) := v in
  match md with
  | Fwd => (set_out d_outputs o (np_map2 Rplus (d_outputs o)
              (np_map2 Rmult (np_map (fun t => 1 / t) dv) (d_residuals o))), d_residuals)
  | Rev => (d_outputs, set_out d_residuals o (np_map2 Rplus (d_residuals o)
              (np_map2 Rmult (np_map (fun t => 1 / t) dv) (d_outputs o))))
  end.

(** implicit_component.py L261-268: all outputs, res_out_map.values() in order.
    [dv o] is self.derivs[o]; the vectors hold arrays of the outputs' shapes. *)
Definition solve_linear (md : mode) (m : list (name * name)) (dv : name -> nd R)
           (v : (name -> nd R) * (name -> nd R)) : (name -> nd R) * (name -> nd R) :=
  fold_left (fun v o => solve_linear1 md (dv o) o v) (map snd m) v.
