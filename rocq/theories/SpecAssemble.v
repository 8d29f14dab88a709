(** Vocabulary for promotions, design variables and repeated setup. *)
From Verif Require Import PyBase Graph GroupApi Assemble.

(** Call number [i] was [o], with its keyword arguments [c]. *)
Definition called (cs : list call) (i : nat) (o : op) (c : call) : Prop :=
  nth_error cs i = Some c /\ call_op c = o.

(** Exactly one system was added under the name [l], with the promotions [r]. *)
Definition added_once (parts : list ((bool * name) * request)) (l : bool * name) (r : request) : Prop :=
  exists before after, parts = before ++ (l, r) :: after
    /\ forall r', ~ In (l, r') before /\ ~ In (l, r') after.

(** A group that has been set up at least once, by any calls. *)
Inductive set_up (uid : nat -> nat) : group -> Prop :=
| set_up_first O fuel reverse h g added :
    setup_once O uid fuel reverse group0 h = Some (Ok (g, added)) -> set_up uid g
| set_up_later O fuel reverse g h g' added : set_up uid g ->
    setup_once O uid fuel reverse g h = Some (Ok (g', added)) -> set_up uid g'.
