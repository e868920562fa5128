(** What reports depend on, and what is printed about requests that got no response *)
From Verif Require Export SpecWhole.
Open Scope N_scope.

(** the response that says nothing *)
Definition nothing : response := Response [] 0 [] [] [].
(** no connection, or the request cannot be written, or what comes back is no response *)
Definition mute (x : exchange) : Prop :=
  (exists e, x_connect x = inr e) \/
  (exists d e, x_connect x = inl d /\ x_write x = Some e) \/
  (exists d e, x_connect x = inl d /\ x_write x = None /\ response_from (x_reply x) = inr e).
Definition unreachable (w : env) : Prop := forall tr msg, ordered (e_net w tr msg) /\ mute (e_net w tr msg).
(** the report with its last line up to the duration, and the duration *)
Definition with_duration (said d : str) : str := said ++ lit " (" ++ d ++ lit ")" ++ [10].
(** every report is what [said] says about the request and the response, and the duration *)
Definition said_so (said : demand -> response -> str) (calls : list demand) (xs : list (response * str)) : Prop :=
  forall i q r text, nth_error calls i = Some q -> nth_error xs i = Some (r, text) -> exists ns d, duration_text ns d /\ text = with_duration (said q r) d.
(** one time through a test whose requests get no response *)
Definition vain_visit (said : demand -> response -> str) (calls : list demand) : list event :=
  asked calls ++ map (fun q => Printed (with_duration (said q nothing) (lit "0ns"))) calls.
