(** When an implicit component is regular, what it means that a component stands for its
    solution, and the equations of a model with groups and implicit components as
    subsystems, taken as one system of equations. *)
From Coq Require Import Reals Arith List Bool.
From Verif Require Import PyBase PySet SpecGraph Graph SpecSetup GroupApi SpecApi Run SpecRun.
From Verif Require Import RSum NdArray Component JacSpec SpecNorm SpecExtremum SpecTotal SpecDeriv SpecAdjoint SpecTotals
  Implicit SpecImplicit SpecRoot Nested SpecNested ImplicitModel.
Import ListNotations.
Local Open Scope R_scope.

Record implicit_ok (m : implicit) : Prop := {
  ik_model : inner_ok (im_model m);
  ik_given : in_inputs (im_model m) = im_ins m ++ [im_out m];
  ik_size : size (in_shape (im_model m) (im_res m)) = size (in_shape (im_model m) (im_out m)) }.

Definition out_size (m : implicit) : nat := size (in_shape (im_model m) (im_out m)).

(** [y] lies in the bracket *)
Definition bracketed (m : implicit) (y : values) : Prop :=
  forall i, (i < out_size m)%nat -> between (im_lo m i) (im_hi m i) (y i).

(** At the inputs [v]: every entry of the residual depends on its own entry of the output
    only and has one zero in the bracket, and the components of the internal model obey
    the chain rule at every output in the bracket. *)
Definition one_solution (m : implicit) (v : nat -> values) : Prop :=
  (forall y y' i, (i < out_size m)%nat -> y i = y' i -> residual m v y i = residual m v y' i) /\
  (forall i, (i < out_size m)%nat -> exists z, only_root (fun z => residual m v (fun _ => z) i) (im_lo m i) (im_hi m i) z) /\
  (forall y, bracketed m y -> inner_chained (im_model m) (with_out m v y)).

(** ... at [v] and at all inputs close to it *)
Definition solvable_near (m : implicit) (v : nat -> values) : Prop :=
  exists e, 0 < e /\ forall v',
    (forall q y i, nth_error (im_ins m) q = Some y -> (i < size (in_shape (im_model m) y))%nat ->
       Rabs (v' q i - v q i) < e) -> one_solution m v'.

Definition is_solution (m : implicit) (v : nat -> values) (y : values) : Prop :=
  bracketed m y /\ forall i, (i < out_size m)%nat -> residual m v y i = 0.

(** the rates of the internal variables when one entry of one given variable moves *)
Definition entry_rates (m : implicit) (v : nat -> values) (y : values) (q i : nat) (T : name -> values) : Prop :=
  inner_rates (im_model m) (with_out m v y) (fun q' i' => if Nat.eqb q' q && Nat.eqb i' i then 1 else 0) T.

(** the solution is not an end of the bracket, and each entry of the residual moves with
    its own entry of the output *)
Definition regular_at (m : implicit) (v : nat -> values) : Prop :=
  solvable_near m v /\
  forall y, is_solution m v y -> forall i, (i < out_size m)%nat ->
    y i <> im_lo m i /\ y i <> im_hi m i /\
    forall T, entry_rates m v y (length (im_ins m)) i T -> T (im_res m) i <> 0.

(** [c] computes the solution, and its partials are those by which solve_linear divides:
    minus the derivative of the residual in the input by that in its own output *)
Record stands_for_root (m : implicit) (c : component) : Prop := {
  sr_ins : c_ins c = map (in_shape (im_model m)) (im_ins m);
  sr_out : c_out c = in_shape (im_model m) (im_out m);
  sr_value : forall v, one_solution m v -> is_solution m v (value_of c v);
  sr_partial : forall v q x, nth_error (im_ins m) q = Some x ->
    exists j, c_partials c (inputs_of (c_ins c) v) q = Some j /\
      forall i o, (i < size (in_shape (im_model m) x))%nat -> (o < out_size m)%nat ->
        exists T D, entry_rates m v (value_of c v) q i T /\ entry_rates m v (value_of c v) (length (im_ins m)) o D /\
          jac_entry (size (in_shape (im_model m) x)) j o i = - T (im_res m) o / D (im_res m) o }.

(** ---- a model whose [k]-th subsystem is [kinds k] ---- *)
Section Outer.
Variables (table asm part : nat -> component).
Variables (sub_reads sub_writes : nat -> list name).
Variable shape_of : name -> list nat.
Variable st : api.
Variable kinds : nat -> subsystem.
Local Notation extent x := (size (shape_of x)).
Local Notation reads := (comp_reads sub_reads st).
Local Notation writes := (comp_writes sub_writes st).

(** The linear equations of all variables of the model, its groups and its implicit
    components, at the values [fin]: [T] are the rates of the outer variables, [Ti k]
    those of the [k]-th subsystem.  Residuals do not move. *)
Record system_rates (fin : store values) (ds : name -> values) (dind : nat -> values)
       (T : name -> values) (Ti : nat -> name -> values) : Prop := {
  rs_given : forall x i, ~ written sub_writes st x -> (i < extent x)%nat -> T x i = ds x i;
  rs_indep : forall n nm i, dep_on (adeps st) root n -> abuild st n = BIndep nm ->
    (i < extent nm)%nat -> T nm i = dind n i;
  rs_comp : forall n j x c o, dep_on (adeps st) root n -> (forall k g, abuild st n <> BSub k g) ->
    nth_error (writes n) j = Some x ->
    nth_error (parts_of table asm part (fun _ => []) shape_of st n) j = Some c -> (o < extent x)%nat ->
    T x o = applied c (args (map fin (reads n))) (args (map T (reads n))) o;
  rs_group : forall n k g m, dep_on (adeps st) root n -> abuild st n = BSub k g -> kinds k = SGroup m ->
    inner_rates m (args (map fin (sub_reads k))) (args (map T (sub_reads k))) (Ti k) /\
    forall x o, In x (sub_writes k) -> (o < extent x)%nat -> T x o = Ti k x o;
  rs_implicit : forall n k g m, dep_on (adeps st) root n -> abuild st n = BSub k g -> kinds k = SImplicit m ->
    inner_rates (im_model m) (with_out m (args (map fin (sub_reads k))) (fin (im_out m)))
      (with_out m (args (map T (sub_reads k))) (T (im_out m))) (Ti k) /\
    forall i, (i < out_size m)%nat -> Ti k (im_res m) i = 0 }.

(** the component that stands for output number [j] of subsystem [k] is right *)
Definition subsystem_ok (subs : nat -> list component) (k : nat) : Prop :=
  match kinds k with
  | SGroup m =>
      inner_ok m /\ sub_reads k = in_inputs m /\ (forall x, In x (sub_reads k) -> in_shape m x = shape_of x) /\
      Forall2 (stands_for_output m) (sub_writes k) (subs k)
  | SImplicit m =>
      implicit_ok m /\ sub_reads k = im_ins m /\ sub_writes k = [im_out m] /\
      (forall x, In x (sub_reads k) -> in_shape (im_model m) x = shape_of x) /\
      exists c, subs k = [c] /\ stands_for_root m c
  end.

(** where the subsystem can be differentiated *)
Definition subsystem_regular (k : nat) (v : nat -> values) : Prop :=
  match kinds k with SGroup m => inner_chained m v | SImplicit m => regular_at m v end.
End Outer.
