(** Specification vocabulary for implicit components. *)
From Coq Require Import Reals.
From Verif Require Import PyBase Graph GroupApi RSum NdArray Implicit.
Import ListNotations.
Local Open Scope nat_scope.

(** [sees d ok u v]: v is reached from u by following dependencies all of which
    (v included) satisfy [ok]. *)
Inductive sees (d : nat -> list nat) (ok : nat -> Prop) : nat -> nat -> Prop :=
| sees_direct : forall u v, In v (d u) -> ok v -> sees d ok u v
| sees_step : forall u w v, In w (d u) -> ok w -> sees d ok w v -> sees d ok u v.

(** The input [x] has no producing subsystem, and the residual [r] depends on it
    other than through variables that carry the residual's own name. *)
Definition residual_input (st : api) (r x : nat) : Prop :=
  akind st x = KInput /\ adeps st x = []
  /\ sees (adeps st) (fun v => aname st v <> aname st r) r x.

(** [o] gives [r] as the residual of [out]. *)
Definition gives_residual (o : iop) (out r : nat) : Prop :=
  match o with
  | DefineResidual out' r' => out' = out /\ r' = r
  | DefineBracketed out' r' _ _ => out' = out /\ r' = r
  | _ => False
  end.

(** Call number [i] of the history is [o] and did not raise. *)
Definition succeeded (h : list iop) (xs : list (res nat)) (i : nat) (o : iop) : Prop :=
  nth_error h i = Some o /\ exists y, nth_error xs i = Some (Ok y).

(** At call number [i] of the history the object [x] was called [nm]. *)
Definition named_at (O : oracle) (fuel : nat) (h : list iop) (i x : nat) (nm : name) : Prop :=
  exists G xs, run_iops O fuel igroup0 (firstn i h) = Some (G, xs) /\ aname (ig_api G) x = nm.

Definition no_exception (xs : list (res nat)) : Prop := forall x, In x xs -> exists y, x = Ok y.

(** A bracket given as [b] stands for the value [x i] at flat position [i]. *)
Definition stands_for (b : nd R) (s : list nat) (x : nat -> R) : Prop :=
  (shp b = [] /\ forall i, x i = dat b 0)
  \/ (shp b = s /\ forall i, i < size s -> x i = dat b i).

Definition between (a b z : R) : Prop := (Rmin a b <= z <= Rmax a b)%R.

(** The residual [rn] is elementwise in output [o]: entry [i] is a function [f i]
    of entry [i] of the output, the other outputs being as in [outputs]. *)
Definition elementwise (F : problem) (outputs : name -> nd R) (o rn : name) (s : list nat)
           (f : nat -> R -> R) : Prop :=
  forall env x, shp x = s -> env o = x -> (forall n, n <> o -> env n = outputs n) ->
    forall i, i < size s -> dat (F env rn) i = f i (dat x i).

(** The linear system of the linearised residuals: [J a b i j] is the derivative
    of entry [i] of the residual of output [a] with respect to entry [j] of
    output [b]; [sh] gives the shapes of the outputs [os]. *)
Definition system := name -> name -> nat -> nat -> R.
Definition apply_system (J : system) (os : list name) (sh : name -> list nat)
           (v : name -> nd R) (a : name) (i : nat) : R :=
  fold_right (fun b acc => (rsum (size (sh b)) (fun j => J a b i j * dat (v b) j) + acc)%R) 0%R os.
Definition transposed (J : system) : system := fun a b i j => J b a j i.

(** Every residual element depends on its own output element only. *)
Definition diagonal (J : system) (os : list name) (sh : name -> list nat) : Prop :=
  forall a b i j, In a os -> In b os -> i < size (sh a) -> j < size (sh b) ->
    a <> b \/ i <> j -> J a b i j = 0%R.
Definition regular (J : system) (os : list name) (sh : name -> list nat) : Prop :=
  forall a i, In a os -> i < size (sh a) -> J a a i i <> 0%R.

Definition zeroed (v : name -> nd R) (os : list name) (sh : name -> list nat) : Prop :=
  forall a, In a os -> shp (v a) = sh a /\ forall i, dat (v a) i = 0%R.
