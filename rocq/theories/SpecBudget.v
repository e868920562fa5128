(** How many requests a run makes *)
From Verif Require Export SpecEval SpecRun SpecProcess.
Open Scope N_scope.

(** the requests in a log, whoever made them *)
Definition requests (l : list (who * event)) : N := N.of_nat (sent (map snd l)).
Definition requests_by (x : who) (l : list (who * event)) : N := N.of_nat (sent (events_of x l)).
(** how many calls are written in a text *)
Definition calls (es : list expr) : N := N.of_nat (list_sum (map call_count es)).
(** how many rounds are asked for *)
Definition rounds (duration : option N) (number : N) : N := match duration with Some _ => 2 ^ 32 - 1 | None => number end.
