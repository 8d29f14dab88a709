(** Every call of a function of omtools/std (and every operator) as data: the
    shape recorded on the returned expression, next to the component that its
    build function makes.

    The functions are modelled one by one in the Comp files.  This file adds what
    they record as shape where those files leave it out, and the operands as
    expressions (name, shape, shape of the val attribute; CompCond.v). *)
From Coq Require Import Reals Arith List Bool ZArith.
From Verif Require Import PyBase RSum NdArray NdEinsum Component CompReorder CompReduce CompProduct
  CompTensor CompRot CompEinsum CompEinsumSparse CompElem CompExtremum CompNorm CompCond.
Import ListNotations.
Local Open Scope nat_scope.

(** The calls. *)
Inductive std_call :=
| KElem (e : elem) (x : expr_facts)
| KBinop (op : binop) (a b : operand)
| KNeg (a : operand)
| KSum (xs : list expr_facts) (axes : option (list Z))
| KAverage (xs : list expr_facts) (axes : option (list Z))
| KExtremum (neg : bool) (xs : list expr_facts) (axis : option Z) (rho : R)
| KNorm (x : expr_facts) (p : Z) (axis : norm_axis_arg)
| KInner (x y : expr_facts) (axes : option (list Z * list Z))
| KDot (x y : expr_facts) (axis : option Z)
| KOuter (x y : expr_facts)
| KMatvec (x y : expr_facts)
| KMatmat (x y : expr_facts)
| KCross (x y : expr_facts) (axis : nat)
| KRot (x : expr_facts) (axis : nat)
| KReshape (x : expr_facts) (s : shape)
| KTranspose (x : expr_facts)
| KReorder (x : expr_facts) (op : list nat)
| KExpand (x : expr_facts) (s : shape) (indices : option (list nat))
| KEinsum (sparse : bool) (op : list nat) (xs : list expr_facts)
| KEinsumNew (sparse : bool) (tuples : list (list nat)) (xs : list expr_facts)
| KIfElse (c t f : expr_facts).

(** np.delete(shape, axes) *)
Definition np_delete_axes (s : shape) (zs : list Z) : option shape :=
  option_map (fun axes => delete axes s) (norm_axes (length s) zs).

(** omtools/std/sum.py L23-47, omtools/std/average.py L25-49: [expr] is the last
    operand; one operand without axes keeps the shape of Variable() *)
Definition reduced_shape (xs : list expr_facts) (axes : option (list Z)) : option shape :=
  match rev xs, axes with
  | [], _ => None
  | [x], None => Some [1]
  | x :: _, None => Some (x_shape x)
  | x :: _, Some zs => np_delete_axes (x_shape x) zs
  end.

(** omtools/std/sum.py and average.py: the component is given the shape of the
    last operand for all operands *)
Definition last_shape (xs : list expr_facts) : shape :=
  match rev xs with [] => [] | x :: _ => x_shape x end.

(** omtools/std/dot.py L32-52 *)
Definition dot_shape (s0 s1 : shape) (axis : option Z) : option shape :=
  if list_eq_dec Nat.eq_dec s0 s1 then
    match s0 with
    | [_] => Some [1]
    | _ =>
        match axis with
        | None => None
        | Some z =>
            match norm_axis (length s0) z with
            | Some a => if Nat.eqb (nth a s0 0) 3 then np_delete_axes s0 [z] else None
            | None => None
            end
        end
    end
  else None.

(** omtools/std/inner.py L33-44 *)
Definition inner_shape (s0 s1 : shape) (axes : option (list Z * list Z)) : option shape :=
  match s0, s1 with
  | [_], [_] => Some [1]
  | _, _ =>
      match axes with
      | None => None
      | Some (z0, z1) =>
          match np_delete_axes s0 z0, np_delete_axes s1 z1 with
          | Some r0, Some r1 => Some (r0 ++ r1)
          | _, _ => None
          end
      end
  end.

(** omtools/std/outer.py L30-41 *)
Definition outer_shape (s0 s1 : shape) : shape := s0 ++ s1.

(** omtools/std/matvec.py L27-29 *)
Definition matvec_shape (s0 : shape) : shape := firstn 1 s0.

(** omtools/std/matmat.py L39-49: the build function reshapes the val of a vector
    operand to one column *)
Definition reshape_val_ok (y : expr_facts) : bool :=
  match x_shape y with
  | [n] => Nat.eqb (size (x_val y)) (size [n; 1])
  | _ => true
  end.

(** omtools/std/einsum.py L29-32 *)
Definition einsum_shape (op : list nat) (shapes : list shape) : option shape :=
  compute_einsum_shape (subscripts_tolist op) shapes.
(** omtools/std/einsum_new_api.py L31-39 *)
Definition einsum_new_shape (tuples : list (list nat)) (shapes : list shape) : option shape :=
  match new_subscripts tuples (Nat.eqb (length shapes) (length tuples)) with
  | Some (aslist, _) => compute_einsum_shape aslist shapes
  | None => None
  end.

(** omtools/std/einsum_new_api.py L41-58, both formats *)
Definition einsum_any (sparse : bool) (op : list nat) (names : list nat) (shapes : list shape) :=
  if sparse then einsum_sparse_comp op names shapes else einsum_comp op names shapes.
Definition einsum_new_any (sparse : bool) (tuples : list (list nat)) (names : list nat)
           (shapes : list shape) : option component :=
  match new_subscripts tuples (Nat.eqb (length shapes) (length tuples)) with
  | Some (_, str) => einsum_any sparse str names shapes
  | None => None
  end.

(** recorded shape and component together, from the outcome of an operator *)
Definition of_outcome (o : outcome) : option (shape * option component) :=
  match o with
  | Expr s (Some b) => Some (s, b)
  | Expr s None => Some (s, None)
  | _ => None
  end.

(** a call that records [s], if it does not raise, and builds [c] *)
Definition returns (s : option shape) (c : option component) : option (shape * option component) :=
  option_map (fun s => (s, c)) s.

Definition name_shape (x : expr_facts) : nat * shape := (x_name x, x_shape x).

(** add_input raises for a second input of one name *)
Definition distinct_inputs (xs : list expr_facts) (c : option component) : option component :=
  if names_ok (map x_name xs) then c else None.

(** The call: [None] when it raises; otherwise the recorded shape and the
    component ([None] when building it or its setup raises). *)
Definition std (k : std_call) : option (shape * option component) :=
  match k with
  | KElem e x => of_outcome (std_elem e (OVar (x_name x) (x_shape x)))
  | KBinop op a b => of_outcome (py_binop op a b)
  | KNeg a => of_outcome (py_neg a)
  | KSum xs axes =>
      returns (reduced_shape xs axes)
              (distinct_inputs xs (sum_comp (last_shape xs) (length xs) axes))
  | KAverage xs axes =>
      returns (reduced_shape xs axes)
              (distinct_inputs xs (average_comp (last_shape xs) (length xs) axes))
  | KExtremum neg xs axis rho => extremum neg (map name_shape xs) axis rho
  | KNorm x p axis => pnorm (x_shape x) p axis
  | KInner x y axes =>
      returns (inner_shape (x_shape x) (x_shape y) axes)
              (distinct_inputs [x; y] (option_map snd (inner (x_shape x) (x_shape y) axes)))
  | KDot x y axis =>
      returns (dot_shape (x_shape x) (x_shape y) axis)
              (distinct_inputs [x; y] (dot_comp (x_shape x) (x_shape y) axis))
  | KOuter x y =>
      returns (Some (outer_shape (x_shape x) (x_shape y)))
              (distinct_inputs [x; y] (Some (outer_comp (x_shape x) (x_shape y))))
  | KMatvec x y =>
      match matvec_comp (x_shape x) (x_shape y) with
      | Some c => Some (matvec_shape (x_shape x), distinct_inputs [x; y] (Some c))
      | None => None
      end
  | KMatmat x y =>
      match matmat_comp (x_shape x) (x_shape y) with
      | Some (c, s) => Some (s, distinct_inputs [x; y] (if reshape_val_ok y then Some c else None))
      | None => None
      end
  | KCross x y axis =>
      returns (if list_eq_dec Nat.eq_dec (x_shape x) (x_shape y)
               then match nth_error (x_shape x) axis with Some 3 => Some (x_shape x) | _ => None end
               else None)
              (distinct_inputs [x; y] (cross_comp (x_shape x) (x_shape y) axis))
  | KRot x axis => Some (rot_out_shape (x_shape x), Some (rot_comp (x_shape x) axis))
  | KReshape x s => Some (reshape_std (x_shape x) s, Some (reshape_comp (x_shape x) s))
  | KTranspose x => Some (transpose_std (x_shape x), Some (transpose_comp (x_shape x)))
  | KReorder x op => returns (reorder_std (x_shape x) op) (reorder_comp (x_shape x) op)
  | KExpand x s indices =>
      match expand_std (x_shape x) s indices with
      | Some _ => Some (s, expand_comp (x_shape x) s indices)
      | None => None
      end
  | KEinsum sparse op xs =>
      returns (einsum_shape op (map x_shape xs))
              (einsum_any sparse op (map x_name xs) (map x_shape xs))
  | KEinsumNew sparse tuples xs =>
      returns (einsum_new_shape tuples (map x_shape xs))
              (einsum_new_any sparse tuples (map x_name xs) (map x_shape xs))
  | KIfElse c t f => if_else c t f
  end.

(** The expressions a call is applied to. *)
Definition operand_expr (a : operand) : list (nat * shape) :=
  match a with OVar n s => [(n, s)] | _ => [] end.
Definition call_operands (k : std_call) : list (nat * shape) :=
  match k with
  | KElem _ x | KNorm x _ _ | KRot x _ | KReshape x _ | KTranspose x | KReorder x _ | KExpand x _ _ =>
      [name_shape x]
  | KBinop _ a b => operand_expr a ++ operand_expr b
  | KNeg a => operand_expr a
  | KSum xs _ | KAverage xs _ | KExtremum _ xs _ _ | KEinsum _ _ xs | KEinsumNew _ _ xs =>
      map name_shape xs
  | KInner x y _ | KDot x y _ | KOuter x y | KMatvec x y | KMatmat x y | KCross x y _ =>
      [name_shape x; name_shape y]
  | KIfElse c t f => [name_shape c; name_shape t; name_shape f]
  end.

(** omtools/core/explicit_output.py L47-84 (define) with
    omtools/comps/pass_through_comp.py L11-32: an output declared with shape [s]
    that is defined by the expression [x] *)
Definition pass_through_comp (s : shape) : component :=
  comp1 s s (fun x => assign_output s x)
        (fun _ => as_sparse (sparse_partials (np_arange (size s)) (np_arange (size s)) (scalar 1%R))).
Definition define (s : shape) (x : expr_facts) : shape * component :=
  (s, pass_through_comp (x_shape x)).
