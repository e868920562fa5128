(** Runs to the end against a server that all threads share *)
From Verif Require Export SpecSafe SpecShared.
Open Scope N_scope.

(** no answer of the server has a body that makes its reader loop *)
Definition readable_server (v : server) : Prop := forall l id msg rs, response_from (x_reply (v l id msg)) = inl rs -> no_bang (segment (rs_body rs)).
