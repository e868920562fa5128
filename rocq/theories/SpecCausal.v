(** Servers that give the same answers so far *)
From Verif Require Export SpecShuffle.
Open Scope N_scope.

(** the same but for the network *)
Definition same_machine (w w' : env) : Prop := e_host w' = e_host w /\ e_prepare w' = e_prepare w.
(** the same answers to all requests among the doings [T] *)
Definition same_answers (w w' : env) (T : list event) : Prop :=
  forall t msg, starts_with (t ++ [Sent msg]) T -> e_net w' t msg = e_net w t msg.
(** the same answers to all of them but the last of the doings, if that is a request *)
Definition same_answers_before (w w' : env) (T : list event) : Prop :=
  forall t msg, starts_with (t ++ [Sent msg]) T -> t ++ [Sent msg] <> T -> e_net w' t msg = e_net w t msg.
