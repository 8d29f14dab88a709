(** Model of out[key] = expr: omtools/core/explicit_output.py L88-166 and
    omtools/comps/indexed_pass_through_comp.py L15-55.

    Simplifications: an expression is its name and its shape (expr.val is only
    passed on as the initial value of an input); arrays and lists in a key are
    not represented (a list has no start, so it raises as [KOther] does). *)
From Coq Require Import Reals Lia Arith List Bool ZArith.
From Verif Require Import RSum NdArray NdEinsum NdIndex Component CompReorder Indexing.
Import ListNotations.
Local Open Scope Z_scope.

(** an entry of self._tgt_indices *)
Record target := Target { tg_name : nat; tg_shape : list nat; tg_idx : list Z }.

Record out_var := OutVar {
  ov_shape : list nat;
  ov_deps : list nat;         (* names of the dependencies *)
  ov_tgts : list target;      (* self._tgt_indices, a dict in insertion order *)
  ov_checked : list Z;        (* self.checked_indices, a set *)
  ov_built : bool             (* self.build, self.defined, self.indexed_assignment *)
}.

(** a created output *)
Definition fresh_out (s : list nat) : out_var := OutVar s [] [] [] false.

(** what the caller sees: the call returns, or raises before anything but the
    dependencies changed, or raises because of overlapping indices *)
Inductive answer := Done | Rejected | Overlap.

(** explicit_output.py L100-115: entry number [i] of a tuple *)
Fixpoint tuple_positions (s : list nat) (i : nat) (l : list key1) : option (list (list nat)) :=
  match l with
  | [] => Some []
  | k :: l' =>
      match nth_error s i with
      | None => None
      | Some n =>
          let sl := match k with
                    | KInt z => Some (Slice (Some z) (Some (z + 1)) None)
                    | KSlice sl => Some sl
                    | _ => None
                    end in
          match sl with
          | None => None
          | Some sl =>
              match slice_to_list (sl_start sl) (sl_stop sl) (sl_step sl) (Some (Z.of_nat n)),
                    tuple_positions s (S i) l' with
              | Some p, Some r => Some (p :: r)
              | _, _ => None
              end
          end
      end
  end.

(** explicit_output.py L98-137: np.array(tgt_indices), L117-120 being
    np.ravel_multi_index *)
Definition key_targets (s : list nat) (k : key) : option (nd Z) :=
  match k with
  | KTuple l =>
      match tuple_positions s 0 l with
      | Some ls => option_map (np_map Z.of_nat) (mesh_ravel s ls)
      | None => None
      end
  | KOne (KSlice sl) =>
      match s with
      | [] => None
      | n :: _ =>
          option_map (fun l => Nd [length l] (fun k => Z.of_nat (nth k l 0%nat)))
            (slice_to_list (sl_start sl) (sl_stop sl) (sl_step sl) (Some (Z.of_nat n)))
      end
  | KOne (KInt z) => Some (Nd [1%nat] (fun _ => z))
  | KOne _ => None
  end.

Definition zmem (z : Z) (l : list Z) : bool := existsb (Z.eqb z) l.

Definition name_used (o : out_var) (e : nat) : bool := existsb (fun t => Nat.eqb (tg_name t) e) (ov_tgts o).

(** explicit_output.py __setitem__ L88-166, for an expression called [e] of
    shape [es] *)
Definition setitem (o : out_var) (k : key) (e : nat) (es : list nat) : out_var * answer :=
  let deps := ov_deps o ++ [e] in
  let o1 := OutVar (ov_shape o) deps (ov_tgts o) (ov_checked o) (ov_built o) in
  match key_targets (ov_shape o) k with
  | None => (o1, Rejected)
  | Some t =>
      if list_eq_dec Nat.eq_dec (shp t) es then
        let idx := map (dat t) (seq 0 (size (shp t))) in
        if forallb (fun z => z <? Z.of_nat (size (ov_shape o))) idx then
          if name_used o e then (o1, Rejected)
          else
            let tgts := ov_tgts o ++ [Target e es idx] in
            let checked := ov_checked o ++ idx in
            if existsb (fun z => zmem z (ov_checked o)) idx
            then (OutVar (ov_shape o) deps tgts checked (ov_built o), Overlap)
            else (OutVar (ov_shape o) deps tgts checked true, Done)
        else (o1, Rejected)
      else (o1, Rejected)
  end.

(** one assignment: key, name and shape of the expression *)
Record assignment := Assign { as_key : key; as_name : nat; as_shape : list nat }.

Fixpoint setitems (o : out_var) (l : list assignment) : out_var * list answer :=
  match l with
  | [] => (o, [])
  | a :: l' => let (o1, r) := setitem o (as_key a) (as_name a) (as_shape a) in
               let (o2, rs) := setitems o1 l' in (o2, r :: rs)
  end.

(** indexed_pass_through_comp.py compute L47-55: outputs[out][i] = values, where
    the indices of one assignment are distinct *)
Definition write (y : nat -> R) (idx : list nat) (x : nd R) : nat -> R :=
  fun z => if mem z idx then dat x (find_pos idx z) else y z.

Fixpoint write_all (y : nat -> R) (idxs : list (list nat)) (ins : list (nd R)) : option (nat -> R) :=
  match idxs, ins with
  | [], [] => Some y
  | idx :: idxs', x :: ins' =>
      if Nat.eqb (size (shp x)) (length idx) then write_all (write y idx x) idxs' ins' else None
  | _, _ => None
  end.

(** indexed_pass_through_comp.py L15-55; [y0] is what the output vector holds
    before compute.  Negative rows raise in setup. *)
Definition assembled (s : list nat) (y0 : nat -> R) (ts : list target) : option component :=
  if forallb (fun t => forallb (fun z => (0 <=? z) && (z <? Z.of_nat (size s))) (tg_idx t)) ts then
    let idxs := map (fun t => map Z.to_nat (tg_idx t)) ts in
    Some (Comp (map tg_shape ts) s
      (fun ins => if Nat.eqb (length s) 0 then None
                  else option_map (Nd s) (write_all y0 idxs ins))
      (fun _ p => match nth_error idxs p with
                  | Some idx => as_sparse (sparse_partials (Nd [length idx] (fun k => nth k idx 0%nat))
                                             (np_arange (length idx)) (scalar 1%R))
                  | None => None
                  end))
  else None.
