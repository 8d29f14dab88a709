(** Model of the methods a user calls on a Group and on the expressions it hands
    out (omtools/core/group.py L173-422, variable.py L122-212,
    explicit_output.py L47-166, indep.py, input.py, subsystem.py), as a state
    machine over the Variable objects of one group. *)
From Verif Require Import PyBase Graph Replace.

(** Names: generated by Variable.__init__ (variable.py L124-126), given by the
    user, or 'decompose_' + name (variable.py L150).  The three are taken to be
    different from one another. *)
Inductive name :=
| Auto (n : nat)
| User (s : nat)
| Decompose (n : name).

Fixpoint name_eqb (a b : name) : bool :=
  match a, b with
  | Auto x, Auto y => Nat.eqb x y
  | User x, User y => Nat.eqb x y
  | Decompose x, Decompose y => name_eqb x y
  | _, _ => false
  end.

(** Variable.build: what the closure will construct when setup calls it.
    Object references are looked up (their [name]) at that time; names are
    captured when the closure or its data is made. *)
Inductive builder :=
| NoBuild                              (* variable.py L132 *)
| BExpr (f : nat) (args : list nat)    (* std/*.py, variable.py L403-711 *)
| BIndep (nm : name)                   (* indep.py L37-41: name=name *)
| BPass (expr : nat)                   (* explicit_output.py L78-81 *)
| BIndexed                             (* explicit_output.py L159-164: reads the dict
                                          _tgt_indices (by reference) when called *)
| BSub (k : nat) (is_group : bool)     (* subsystem.py L25: the k-th user system *)
| BDecomp (x : nat).                   (* variable.py L207-211 *)

Record api := Api {
  adeps : nat -> list nat;            (* Variable.dependencies *)
  akind : nat -> kind;                (* class *)
  aname : nat -> name;                (* Variable.name *)
  abuild : nat -> builder;            (* Variable.build *)
  adefined : nat -> bool;             (* Output.defined *)
  aindexed : nat -> bool;             (* ExplicitOutput.indexed_assignment *)
  atgt : nat -> list (name * nat);    (* ExplicitOutput._tgt_indices: keys; the
                                         object is a ghost, only its name is kept *)
  achecked : nat -> list nat;         (* ExplicitOutput.checked_indices *)
  adecomp : nat -> option nat;        (* Variable._decomp *)
  aparts : nat -> list (nat * nat);   (* indexed_exprs of a decomposition: key -> object *)
  anext : nat;                        (* number of objects made; object 0 is Group._root *)
  arecent : option nat;               (* Group._most_recently_added_subsystem *)
  atick : nat
}.

(** A new group: only the root Variable exists (group.py L150-171). *)
Definition api0 : api :=
  Api (fun _ => []) (fun _ => KVar) (fun n => Auto n) (fun _ => NoBuild)
      (fun _ => false) (fun _ => false) (fun _ => []) (fun _ => [])
      (fun _ => None) (fun _ => []) 1 None 0.

Definition root : nat := 0.

(** Variable.__init__ followed by initialize (variable.py L122-140): a new
    object without dependencies. *)
Definition new_obj (st : api) (k : kind) (nm : name) (b : builder) : api :=
  Api (adeps st) (upd (akind st) (anext st) k) (upd (aname st) (anext st) nm)
      (upd (abuild st) (anext st) b) (adefined st) (aindexed st) (atgt st) (achecked st)
      (adecomp st) (aparts st) (S (anext st)) (arecent st) (atick st).

Definition set_adeps (st : api) (d : nat -> list nat) (t : nat) : api :=
  Api d (akind st) (aname st) (abuild st) (adefined st) (aindexed st) (atgt st)
      (achecked st) (adecomp st) (aparts st) (anext st) (arecent st) t.
Definition set_name (st : api) (n : nat) (nm : name) : api :=
  Api (adeps st) (akind st) (upd (aname st) n nm) (abuild st) (adefined st) (aindexed st)
      (atgt st) (achecked st) (adecomp st) (aparts st) (anext st) (arecent st) (atick st).
Definition set_build (st : api) (n : nat) (b : builder) : api :=
  Api (adeps st) (akind st) (aname st) (upd (abuild st) n b) (adefined st) (aindexed st)
      (atgt st) (achecked st) (adecomp st) (aparts st) (anext st) (arecent st) (atick st).
Definition set_defined (st : api) (n : nat) (idx : bool) : api :=
  Api (adeps st) (akind st) (aname st) (abuild st) (upd (adefined st) n true)
      (if idx then upd (aindexed st) n true else aindexed st)
      (atgt st) (achecked st) (adecomp st) (aparts st) (anext st) (arecent st) (atick st).
Definition set_tgt (st : api) (n : nat) (l : list (name * nat)) (c : list nat) : api :=
  Api (adeps st) (akind st) (aname st) (abuild st) (adefined st) (aindexed st)
      (upd (atgt st) n l) (upd (achecked st) n c) (adecomp st) (aparts st) (anext st)
      (arecent st) (atick st).
Definition set_recent (st : api) (n : nat) : api :=
  Api (adeps st) (akind st) (aname st) (abuild st) (adefined st) (aindexed st)
      (atgt st) (achecked st) (adecomp st) (aparts st) (anext st) (Some n) (atick st).
Definition set_parts (st : api) (x : nat) (dc : nat) (l : list (nat * nat)) : api :=
  Api (adeps st) (akind st) (aname st) (abuild st) (adefined st) (aindexed st)
      (atgt st) (achecked st) (upd (adecomp st) x (Some dc)) (upd (aparts st) dc l) (anext st)
      (arecent st) (atick st).

(** The user's calls.  Objects are referred to by number. *)
Inductive op :=
| DeclareInput (s : nat)
| CreateIndep (s : nat)
| CreateOutput (s : nat)
| Register (s : nat) (n : nat)
| AddSubsystem (s : nat) (k : nat) (is_group : bool)
| Expr (f : nat) (args : list nat)        (* any operator or std function call *)
| Define (out expr : nat)
| Setitem (out expr : nat) (key : res (list nat))
    (* [key]: what the checks of explicit_output.py L96-143 make of the key: the
       flat indices, or the exception they raise (modelled in Indexing.v) *)
| Getitem (x key : nat).                  (* an accepted key, up to normalisation *)

Section Step.
Variable O : oracle.

(** variable.py L223-242 *)
Definition add_dep (st : api) (n x : nat) : api :=
  set_adeps st (upd (adeps st) n (O (atick st) (adeps st n ++ [x]))) (S (atick st)).

(** Objects the user can hold a reference to: everything handed out by a call,
    i.e. not the root, not Subsystem nodes, not decomposition nodes. *)
Definition visible (st : api) (n : nat) : bool :=
  Nat.ltb 0 n && Nat.ltb n (anext st) &&
  match akind st n with KSubsystem => false | _ => true end &&
  match aname st n with Decompose _ => false | _ => true end.

(** group.py L316-347 *)
Definition register_output (st : api) (s n : nat) : api * res nat :=
  match akind st n with
  | KInput => (st, Raise TypeError)                               (* L335-336 *)
  | _ => if mem n (adeps st root) then (st, Raise ValueError)     (* L338-341 *)
         else (add_dep (set_name st n (User s)) root n, Ok n)     (* L343-345 *)
  end.

Definition step (fuel : nat) (st : api) (o : op) : option (api * res nat) :=
  let new := anext st in
  match o with
  | DeclareInput s =>                                             (* group.py L173-211 *)
    let st1 := new_obj st KInput (User s) NoBuild in
    Some (match arecent st with
          | Some sub => add_dep st1 new sub
          | None => st1
          end, Ok new)
  | CreateIndep s =>                                              (* group.py L213-252 *)
    let st1 := new_obj st KIndep (User s) (BIndep (User s)) in
    let st2 := match arecent st with
               | Some sub => add_dep st1 sub new
               | None => st1
               end in
    Some (register_output st2 s new)
  | CreateOutput s =>                                             (* group.py L254-283 *)
    Some (add_dep (new_obj st KExplicit (User s) NoBuild) root new, Ok new)
  | Register s n =>
    if visible st n then Some (register_output st s n) else Some (st, Raise NameError)
  | AddSubsystem s k g =>                                         (* group.py L349-395 *)
    let st1 := set_recent (new_obj st KSubsystem (User s) (BSub k g)) new in
    let st2 := fold_left (fun st x => add_dep st new x) (adeps st root) st1 in
    Some (add_dep st2 root new, Ok new)
  | Expr f args =>                                                (* std/*.py, variable.py *)
    if forallb (visible st) args then
      Some (fold_left (fun st x => add_dep st new x) args
              (new_obj st KVar (Auto new) (BExpr f args)), Ok new)
    else Some (st, Raise NameError)
  | Define out expr =>                                            (* explicit_output.py L47-84 *)
    if visible st out && visible st expr &&
       match akind st out with KExplicit => true | _ => false end then
      if Nat.eqb expr out then Some (st, Raise ValueError)        (* L58-60 *)
      else if adefined st out then Some (st, Raise ValueError)    (* L61-70 *)
      else
        let st1 := new_obj (set_defined st out false) KInput (aname st out) NoBuild in
        match define_graph O fuel out expr new (adeps st) (atick st) with  (* L73-78 *)
        | None => None
        | Some d => Some (set_build (set_adeps st1 d (S (atick st))) out (BPass expr), Ok out)
        end
    else Some (st, Raise NameError)
  | Setitem out expr key =>                                       (* explicit_output.py L88-166 *)
    if visible st out && visible st expr &&
       match akind st out with KExplicit => true | _ => false end then
      let st1 := add_dep st out expr in                           (* L93 *)
      match key with
      | Raise e => Some (st1, Raise e)                            (* L96-143 *)
      | Ok idx =>
        if existsb (fun t => name_eqb (fst t) (aname st expr)) (atgt st out)
        then Some (st1, Raise KeyError)                           (* L145-148 *)
        else
          let tgt := atgt st out ++ [(aname st expr, expr)] in    (* L149-150 *)
          let st2 := set_tgt st1 out tgt (achecked st out ++ idx) in  (* L153-155 *)
          if existsb (fun i => mem i (achecked st out)) idx
          then Some (st2, Raise ValueError)                       (* L156-157 *)
          else Some (set_build (set_defined st2 out true) out BIndexed, Ok out) (* L159-166 *)
      end
    else Some (st, Raise NameError)
  | Getitem x key =>                                              (* variable.py L142-212 *)
    if visible st x then
      let '(st1, dc) :=
        match adecomp st x with
        | Some dc => (st, dc)
        | None =>                                                 (* L146-151 *)
          (add_dep (set_parts (new_obj st KVar (Decompose (aname st x)) NoBuild) x new [])
                   new x, new)
        end in
      match find (fun p => Nat.eqb (fst p) key) (aparts st1 dc) with
      | Some (_, e) => Some (st1, Ok e)                           (* L183-184 *)
      | None =>                                                   (* L199-212 *)
        let e := anext st1 in
        let st2 := set_parts (new_obj st1 KVar (Auto e) NoBuild) x dc
                             (aparts st1 dc ++ [(key, e)]) in
        Some (set_build (add_dep st2 e dc) dc (BDecomp x), Ok e)
      end
    else Some (st, Raise NameError)
  end.

(** A history of calls; exceptions are caught by the user and the history goes on. *)
Fixpoint run_ops (fuel : nat) (st : api) (h : list op) : option (api * list (res nat)) :=
  match h with
  | [] => Some (st, [])
  | o :: r => match step fuel st o with
              | Some (st', x) => match run_ops fuel st' r with
                                 | Some (st'', xs) => Some (st'', x :: xs)
                                 | None => None
                                 end
              | None => None
              end
  end.
End Step.

Definition has_build (st : api) (n : nat) : bool :=
  match abuild st n with NoBuild => false | _ => true end.

(** group.py L91-95: name under which the built system is added: 'comp_' + name
    unless it is a Group. *)
Definition label (st : api) (n : nat) : bool * name :=
  match abuild st n with
  | BSub _ true => (false, aname st n)
  | _ => (true, aname st n)
  end.
Definition label_eqb (a b : bool * name) : bool :=
  Bool.eqb (fst a) (fst b) && name_eqb (snd a) (snd b).

(** group.py L80-117, with OpenMDAO's Group.add_subsystem refusing a name that is
    already used (RuntimeError). *)
Fixpoint build_all (st : api) (order added : list nat) : res (list nat) :=
  match order with
  | [] => Ok added
  | n :: r =>
    if is_output (akind st n) && negb (adefined st n) then Raise ValueError
    else if has_build st n then
      if existsb (fun m => label_eqb (label st m) (label st n)) added then Raise RuntimeError
      else build_all st r (added ++ [n])
    else build_all st r added
  end.

(** Group.setup after the user's own code (group.py L42-122). *)
Definition group_setup (O : oracle) (iset : list nat -> list nat) (uid : nat -> nat)
           (fuel : nat) (reverse : bool) (st : api) : option (res (list nat)) :=
  match setup_graph O iset uid (akind st) fuel root reverse [] (fresh (adeps st)) with
  | None => None
  | Some (Raise e) => Some (Raise e)
  | Some (Ok (_, l, _)) => Some (build_all st (rev l) [])
  end.

(** Names a built component declares as inputs / outputs (promoted: promotes=['*']).
    [sub_reads k], [sub_writes k]: promoted names of the k-th user system. *)
Section Wires.
Variables (sub_reads sub_writes : nat -> list name).
Definition comp_reads (st : api) (n : nat) : list name :=
  match abuild st n with
  | NoBuild | BIndep _ => []
  | BExpr _ args => map (aname st) args          (* in_name(s)=expr.name *)
  | BPass e => [aname st e]                       (* pass_through_comp.py *)
  | BIndexed => map fst (atgt st n)               (* indexed_pass_through_comp.py: dict keys *)
  | BSub k _ => sub_reads k
  | BDecomp x => [aname st x]
  end.
Definition comp_writes (st : api) (n : nat) : list name :=
  match abuild st n with
  | NoBuild => []
  | BIndep nm => [nm]
  | BExpr _ _ | BPass _ | BIndexed => [aname st n]
  | BSub k _ => sub_writes k
  | BDecomp _ => map (fun p => aname st (snd p)) (aparts st n)   (* decompose_comp.py *)
  end.
End Wires.

(** x, y inputs; e = x+y; out = create_output; out.define(f(out, e)); e registered. *)
Definition demo_history : list op :=
  [DeclareInput 1; DeclareInput 2; Expr 0 [1; 2]; CreateOutput 3; Expr 1 [4; 3];
   Define 4 5; Register 6 3; CreateIndep 7; AddSubsystem 8 0 true; DeclareInput 9;
   Expr 2 [9]; Register 10 10].

Example demo_history_run :
  match run_ops nodup_oracle 40 api0 demo_history with
  | Some (st, _) => Some (map (adeps st) (seq 0 12))
  | None => None
  end = Some [[4; 3; 7; 8; 10]; []; []; [1; 2]; [5]; [3; 6]; []; []; [4; 3; 7]; [8]; [9]; []].
Proof. reflexivity. Qed.
