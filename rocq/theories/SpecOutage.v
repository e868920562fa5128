(** What users see of the [test] command when its output is refused, a signal comes or a
    thread cannot be started *)
From Verif Require Export Outage SpecProcess.
Open Scope N_scope.

(** executions, and what went wrong in them *)
Inductive reaches (g : setting) : list trouble -> state -> state -> Prop :=
| rc_refl k : reaches g [] k k
| rc_step fs k k1 k2 x : reaches g fs k k1 -> state_step g x k1 k2 -> reaches g (fs ++ match x with Some t => [t] | None => [] end) k k2.

(** A thread that was stopped by a refused print: its complete iterations, then a part of
    the next one that ends just before something it wanted to print *)
Definition cut_short (w : env) (body : list expr) (c : ctx) (m : N) (bs : list (list record)) (own : list event) : Prop :=
  exists s o s2 x rest, iterated w body c (N.of_nat (length bs)) s bs /\ N.of_nat (length bs) < m /\ eval_block w body s = (o, s2) /\
    starts_with (s_trace s) own /\ s_trace s2 ++ afterwards w o s2 = own ++ Printed x :: rest.

(** the sources: the path, or the current directory *)
Definition root_of (path : option (str * node)) (here : str * node) : str * node := match path with Some r => r | None => here end.
