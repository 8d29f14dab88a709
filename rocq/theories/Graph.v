(** Model of the graph passes run by [Group.setup]
    (omtools/core/graph.py, omtools/core/variable.py, omtools/core/group.py). *)
From Verif Require Import PyBase PySet.

(** Class of a Variable object (omtools/core/{variable,input,indep,
    explicit_output,implicit_output,subsystem}.py). *)
Inductive kind :=
| KVar          (* plain Variable / Elementwise* : an expression *)
| KInput        (* Input *)
| KIndep        (* Indep *)
| KExplicit     (* ExplicitOutput *)
| KImplicit     (* ImplicitOutput *)
| KSubsystem.   (* Subsystem *)

Definition is_indep (k : kind) : bool := match k with KIndep => true | _ => false end.
Definition is_output (k : kind) : bool :=
  match k with KExplicit | KImplicit => true | _ => false end.

(** Mutable attributes of the Variable objects touched by the passes
    (variable.py L122-140), indexed by object number; [tick] counts calls of
    [list(set(objects))] so that the oracle may answer each differently. *)
Record gstate := GS {
  deps : nat -> list nat;        (* Variable.dependencies *)
  dependents : nat -> list nat;  (* Variable.dependents *)
  visited : nat -> nat;          (* Variable.times_visited *)
  dag_cost : nat -> nat;         (* Variable._dag_cost *)
  tick : nat
}.

Definition set_deps (s : gstate) (n : nat) (l : list nat) : gstate :=
  GS (upd (deps s) n l) (dependents s) (visited s) (dag_cost s) (tick s).

Section Passes.
(** Order in which object sets are listed. *)
Variable O : oracle.
(** Order in which [list(set(ints))] lists its elements (CPython: [set_list]). *)
Variable iset : list nat -> list nat.
(** Variable._id of each object (variable.py L124-125), abstracted to a number. *)
Variable uid : nat -> nat.
Variable kd : nat -> kind.

(** variable.py L223-242, L364-368: append, then list(set(...)). *)
Definition add_dependency_node (s : gstate) (n d : nat) : gstate :=
  GS (upd (deps s) n (O (tick s) (deps s n ++ [d]))) (dependents s) (visited s)
     (dag_cost s) (S (tick s)).

(** variable.py L219-221 *)
Definition add_dependent_node (s : gstate) (n d : nat) : gstate :=
  GS (deps s) (upd (dependents s) n (O (tick s) (dependents s n ++ [d]))) (visited s)
     (dag_cost s) (S (tick s)).

(** dict lookup in Group.nodes (keys are _id) *)
Fixpoint lookup (k : nat) (nodes : list (nat * nat)) : option nat :=
  match nodes with
  | [] => None
  | (k', n) :: r => if Nat.eqb k' k then Some n else lookup k r
  end.

(** variable.py L244-269.  [nodes] is the dict in insertion order. *)
Fixpoint register_nodes (fuel : nat) (d : nat -> list nat) (self : nat)
         (nodes : list (nat * nat)) : option (res (list (nat * nat))) :=
  match fuel with
  | 0 => None
  | S f =>
    (fix loop (ds : list nat) (nodes : list (nat * nat)) :=
       match ds with
       | [] => Some (Ok nodes)
       | n :: r =>
         match lookup (uid n) nodes with
         | Some m => if Nat.eqb m n then loop r nodes        (* L255-259 *)
                     else Some (Raise ValueError)            (* L260-265 *)
         | None =>                                           (* L266-269 *)
           match register_nodes f d n (nodes ++ [(uid n, n)]) with
           | Some (Ok nodes') => loop r nodes'
           | other => other
           end
         end
       end) (d self) nodes
  end.

(** group.py L45-49 *)
Definition add_indep_edges (root : nat) (nodes : list nat) (s : gstate) : gstate :=
  fold_left (fun s node =>
    fold_left (fun s indep =>
      if is_indep (kd indep) then
        if negb (is_indep (kd node)) then add_dependency_node s node indep else s
      else s) (deps s root) s) nodes s.

(** graph.py L18-23: indices (in the node's own dependency list) of
    grandchildren that are also children, with repetitions. *)
Definition indirect_indices (d : nat -> list nat) (node : nat) : list nat :=
  flat_map (fun child =>
    flat_map (fun grandchild =>
      match index_of grandchild (d node) with Some i => [i] | None => [] end)
      (d child)) (d node).

(** variable.py L303-316: [dependencies.remove(dependencies[index])] if in range *)
Definition remove_dependency_by_index (l : list nat) (i : nat) : list nat :=
  match nth_error l i with
  | Some x => remove_first x l
  | None => l
  end.

(** graph.py L5-33 *)
Definition remove_indirect_dependencies (s : gstate) (node : nat) : gstate :=
  let remove := iset (indirect_indices (deps s) node) in               (* L18-25 *)
  let terminal_index :=
    if Nat.eqb (length remove) (length (deps s node)) then 1 else 0 in (* L26-30 *)
  set_deps s node
    (fold_left (fun l i => if Nat.leb terminal_index i
                           then remove_dependency_by_index l i else l)
               (rev remove) (deps s node)).                            (* L31-33 *)

(** variable.py L214-217 *)
Fixpoint add_fwd_edges (fuel : nat) (self : nat) (s : gstate) : option gstate :=
  match fuel with
  | 0 => None
  | S f =>
    (fix loop (ds : list nat) (s : gstate) :=
       match ds with
       | [] => Some s
       | dep :: r =>
         match add_fwd_edges f dep (add_dependent_node s dep self) with
         | Some s' => loop r s'
         | None => None
         end
       end) (deps s self) s
  end.

(** variable.py L318-341: every visit adds the (re)computed costs again. *)
Fixpoint compute_dag_cost (fuel : nat) (self : nat) (s : gstate) : option gstate :=
  match fuel with
  | 0 => None
  | S f =>
    (fix loop (ds : list nat) (s : gstate) :=
       match ds with
       | [] => Some s
       | dep :: r =>
         match compute_dag_cost f dep s with
         | Some s' =>
           loop r (GS (deps s') (dependents s') (visited s')
                      (upd (dag_cost s') self (dag_cost s' self + dag_cost s' dep))
                      (tick s'))
         | None => None
         end
       end) (deps s self) s
  end.

(** Stable insertion, for [sorted(key=...)]: [x] precedes the elements of the
    (already sorted) list that were after it and are not strictly better. *)
Fixpoint insert_by (le : nat -> nat -> bool) (x : nat) (l : list nat) : list nat :=
  match l with
  | [] => [x]
  | y :: r => if le x y then x :: l else y :: insert_by le x r
  end.
Definition stable_sort (le : nat -> nat -> bool) (l : list nat) : list nat :=
  fold_right (insert_by le) [] l.

(** variable.py L343-362; Python's [sorted] is stable, also with reverse=True. *)
Definition sort_dependency_branches (reverse : bool) (s : gstate) (n : nat) : gstate :=
  let le x y := if reverse then Nat.leb (dag_cost s y) (dag_cost s x)
                else Nat.leb (dag_cost s x) (dag_cost s y) in
  set_deps s n (stable_sort le (deps s n)).

(** graph.py L70-90.  The Python list [stack] is kept with its top first;
    [for w in v.dependencies: stack.append(w)] pushes them in order, so the
    last dependency is on top. *)
Fixpoint topo_loop (fuel : nat) (stack : list nat) (vis : nat -> nat)
         (sorted : list nat) (s : gstate) : option (list nat * (nat -> nat)) :=
  match stack with
  | [] => Some (sorted, vis)
  | v :: stack' =>
    match fuel with
    | 0 => None
    | S f =>
      let nd := length (dependents s v) in
      if Nat.leb (vis v) nd then                                  (* L77 *)
        let vis' := upd vis v (S (vis v)) in                      (* L83 *)
        let stack'' := if Nat.leb nd (vis' v)
                       then rev (deps s v) ++ stack' else stack' in  (* L84-86 *)
        let sorted' := if Nat.eqb (vis' v) nd
                       then sorted ++ [v] else sorted in          (* L88-89 *)
        topo_loop f stack'' vis' sorted' s
      else topo_loop f stack' vis sorted s
    end
  end.

Definition topological_sort (fuel : nat) (root : nat) (s : gstate)
  : option (list nat * gstate) :=
  match topo_loop fuel [root] (visited s) [] s with
  | Some (l, vis) => Some (l, GS (deps s) (dependents s) vis (dag_cost s) (tick s))
  | None => None
  end.

(** group.py L42-77: the graph part of setup.  [nodes0] is Group.nodes on entry
    (empty for a new group).  Result: Group.nodes, sorted_expressions and the
    object state afterwards. *)
Definition setup_graph (fuel : nat) (root : nat) (reverse : bool)
           (nodes0 : list (nat * nat)) (s : gstate)
  : option (res (list (nat * nat) * list nat * gstate)) :=
  match register_nodes fuel (deps s) root nodes0 with              (* L42 *)
  | None => None
  | Some (Raise e) => Some (Raise e)
  | Some (Ok nodes) =>
    let ns := map snd nodes in
    let s := add_indep_edges root ns s in                          (* L45-49 *)
    let s := fold_left remove_indirect_dependencies ns s in        (* L53-54 *)
    match add_fwd_edges fuel root s with                           (* L57 *)
    | None => None
    | Some s =>
      if existsb (fun n => Nat.eqb (length (dependents s n)) 0) ns
      then Some (Raise TypeError)     (* L60-65: [del node[name]] on a Variable *)
      else
        match compute_dag_cost fuel root s with                    (* L69 *)
        | None => None
        | Some s =>
          let s := fold_left (sort_dependency_branches reverse) ns s in  (* L70-72 *)
          match topological_sort fuel root s with                  (* L77 *)
          | None => None
          | Some (l, s) => Some (Ok (nodes, l, s))
          end
        end
    end
  end.

(** group.py L80-108: build loop over reversed(sorted_expressions).
    [defined n]: Output.defined; [has_build n]: build is not None.
    Result: the objects whose component was added, in order. *)
Fixpoint build_loop (defined has_build : nat -> bool) (order : list nat)
         (added : list nat) : res (list nat) :=
  match order with
  | [] => Ok added
  | n :: r =>
    if is_output (kd n) && negb (defined n) then Raise ValueError   (* L82-84 *)
    else build_loop defined has_build r
           (if has_build n then added ++ [n] else added)            (* L90-108 *)
  end.

(** group.py L33-122 (after the user's own setup code [func(self)]). *)
Definition setup (fuel : nat) (root : nat) (reverse : bool)
           (defined has_build : nat -> bool)
           (nodes0 : list (nat * nat)) (s : gstate)
  : option (res (list nat * (list (nat * nat) * list nat * gstate))) :=
  match setup_graph fuel root reverse nodes0 s with
  | None => None
  | Some (Raise e) => Some (Raise e)
  | Some (Ok (nodes, l, s')) =>
    Some (do added <- build_loop defined has_build (rev l) [] ;;
          Ok (added, (nodes, l, s')))
  end.
End Passes.

(** State of freshly created Variable objects with the given dependencies
    (variable.py L122-140). *)
Definition fresh (d : nat -> list nat) : gstate :=
  GS d (fun _ => []) (fun _ => 0) (fun _ => 1) 0.

(** Adjacency from a list of rows, for examples. *)
Definition adj (rows : list (list nat)) : nat -> list nat := fun n => nth n rows [].

(** Diamond: root 0 -> {1}, 1 -> {2,3,4}, 2 -> {4}, 3 -> {4}. *)
Example setup_diamond :
  match setup_graph nodup_oracle set_list (fun n => n) (fun _ => KVar) 50 0 false []
          (fresh (adj [[1]; [2; 3; 4]; [4]; [4]; []])) with
  | Some (Ok (_, l, _)) => Some l
  | _ => None
  end = Some [1; 3; 2; 4].
Proof. vm_compute. reflexivity. Qed.
