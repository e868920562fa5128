(** What recording and statistics leave as it is *)
From Verif Require Export SpecProcess.
Open Scope N_scope.

(** the part of the output and requests that is not the statistics, in order *)
Definition tests_part (l : list (who * event)) : list (who * event) :=
  filter (fun x => match fst x with Collector => false | _ => true end) l.
(** the outside of the tests is the same; the record files, what becomes of them, and whether there are statistics, may differ *)
Definition same_worlds (g g' : setting) : Prop := forall id, g_world g' id = g_world g id.
