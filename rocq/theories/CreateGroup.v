(** Groups made by [with self.create_group(name) as group] (omtools/core/group.py
    L397-422; the parent's side is its add_subsystem, Assemble.v), and what each
    later Problem.setup makes of them.

    OpenMDAO: systems added outside of Problem.setup are kept through every
    Problem.setup, before those that the group's own setup adds then. *)
From Verif Require Import PyBase PySet Graph Replace GroupApi Assemble.
Import ListNotations.

(** The body of the block, up to the first call that raises. *)
Fixpoint run_until (O : oracle) (fuel : nat) (st : api) (h : list op) : option (api * option exn) :=
  match h with
  | [] => Some (st, None)
  | o :: h' => match step O fuel st o with
               | None => None
               | Some (st', Raise e) => Some (st', Some e)
               | Some (st', Ok _) => run_until O fuel st' h'
               end
  end.

(** The child: its group, the systems added at the end of the block, and the
    systems it has at present, in the order in which they run. *)
Record child := MkChild { ch_group : group; ch_static : list nat; ch_systems : list nat }.

(** L416-422.  The child's setup runs however the block ended; an exception in it
    is raised in place of the one that ended the block. *)
Definition create_group (O : oracle) (uid : nat -> nat) (fuel : nat) (h : list op) : option (res child) :=
  match run_until O fuel api0 h with
  | None => None
  | Some (st, raised) =>
    match setup_once O uid fuel false (MkGroup st [] (fresh (adeps st))) [] with
    | None => None
    | Some (Raise e) => Some (Raise e)
    | Some (Ok (g, added)) =>
      match raised with
      | Some e => Some (Raise e)
      | None => Some (Ok (MkChild g added added))
      end
    end
  end.

(** Problem.setup runs the child's setup again; Group.setup itself makes no calls
    (L170-171). *)
Definition problem_setup (O : oracle) (uid : nat -> nat) (fuel : nat) (c : child) : option (res child) :=
  match setup_once O uid fuel false (ch_group c) [] with
  | None => None
  | Some (Raise e) => Some (Raise e)
  | Some (Ok (g, added)) => Some (Ok (MkChild g (ch_static c) (ch_static c ++ added)))
  end.

Fixpoint problem_setups (O : oracle) (uid : nat -> nat) (fuel k : nat) (c : child) : option (res child) :=
  match k with
  | 0 => Some (Ok c)
  | S k' => match problem_setup O uid fuel c with
            | Some (Ok c') => problem_setups O uid fuel k' c'
            | x => x
            end
  end.
